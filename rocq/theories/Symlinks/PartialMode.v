(** Resolving partially: links that stay below their directory are kept, the others are replaced. *)
From Coq Require Import String Ascii List Bool Arith Lia.
From Verif Require Import Path.Model Path.Spec Path.Proofs Path.Proofs2 Symlinks.Model Symlinks.Spec Symlinks.Paths
  Symlinks.Follow Symlinks.Runs Symlinks.Complete Symlinks.IgnoreMode.
Import ListNotations.
Local Open Scope string_scope.
Local Open Scope list_scope.

Lemma nonupwards_downward c : PathIsNonUpwards c = true <-> downward c.
Proof.
  rewrite nonupwards_up. unfold downward, target_path. split.
  - intros [A U]. rewrite A. eexists. rewrite go_place. cbn zeta.
    change (mkPlace 0 (rev [])) with (mkPlace 0 []). fold (walk false (split_slash c)).
    unfold place_of in U. rewrite A in U. rewrite U. reflexivity.
  - intros [t E]. destruct (is_absolute c) eqn:A; [discriminate|]. split; [reflexivity|].
    rewrite go_place in E. cbn zeta in E. change (mkPlace 0 (rev [])) with (mkPlace 0 []) in E.
    fold (walk false (split_slash c)) in E. unfold place_of. rewrite A.
    destruct (Nat.eqb_spec (up (walk false (split_slash c))) 0); [assumption|discriminate].
Qed.

Lemma downward_dec c : {downward c} + {~ downward c}.
Proof.
  destruct (PathIsNonUpwards c) eqn:E.
  - left. now apply nonupwards_downward.
  - right. intros H. apply nonupwards_downward in H. congruence.
Qed.

(** ** The links that are left *)
Section Left.
  Context (root : node).
  Definition down_only (n : node) : Prop := forall p c, at_path n p = Some (Link c) -> downward c.

  Lemma down_only_dir names vs : Forall (fun v => down_only (r_node v)) vs ->
    down_only (Dir (combine names (map r_node vs))).
  Proof.
    intros F [|f p] c E; [discriminate|]. unfold at_path in E. cbn [entry_bypath] in E.
    destruct (entry_of f (combine names (map r_node vs))) as [n|] eqn:G; [|discriminate].
    apply entry_of_In in G. apply in_combine_r in G. apply in_map_iff in G. destruct G as (v & <- & G).
    exact (proj1 (Forall_forall _ _) F v G p c E).
  Qed.

  Lemma forall2_right {A B} (P : B -> Prop) (l : list A) (r : list B) :
    Forall2 (fun _ b => P b) l r -> Forall P r.
  Proof. induction 1; constructor; auto. Qed.

  Lemma left_known p p' n :
    safe (fun _ => True) (fun _ r => down_only (r_node r)) p' (resolve_known ResolvePartially p n).
  Proof.
    destruct n as [x c|c|es]; cbn [resolve_known ignoring partially negb andb safe].
    - intros [|f q] d E; discriminate.
    - destruct (PathIsConfined c p); [|exact I]. cbn [negb]. destruct (PathIsNonUpwards c) eqn:N; cbn [safe].
      + intros [|f q] d E; [|discriminate]. injection E as <-. now apply nonupwards_downward.
      + split; [repeat constructor|]. intros vs F. inversion F as [|? v ? vs0 G F0]; subst. inversion F0; subst. exact G.
    - split; [apply Forall_forall; auto|]. intros vs F. apply down_only_dir. eapply forall2_right. exact F.
  Qed.

  Lemma left_create q :
    safe (fun _ => True) (fun _ r => down_only (r_node r)) (q_path q) (create ResolvePartially root q).
  Proof.
    unfold create. destruct (match q_info q with Some n => Some n | None => _ end); [apply left_known|].
    cbn [ignoring]. destruct (String.eqb _ _); [exact I|]. cbn [safe]. split; [repeat constructor|].
    intros vs F. inversion F as [|? v ? vs0 G F0]; subst. inversion F0; subst.
    destruct (r_node v); try exact I. destruct (GetObjectByPathFromTree _ _); [apply left_known|exact I].
  Qed.

  Lemma partial_links m : resolves_to ResolvePartially root m -> down_only m.
  Proof.
    intros (p & V). destruct (run_safe (fun _ => True) (fun _ r => down_only (r_node r)) (create ResolvePartially root) start)
      as [_ K]; [exact I|intros q _; apply left_create|]. exact (K _ _ V).
  Qed.
End Left.

(** ** Meaning, if the links that are replaced lead to objects without links *)
Section Settled.
  Context (root : node) (PR : proper root) (NL : is_link root = false) (ST : settled root).

  Inductive image : list string -> node -> node -> Prop :=
  | image_blob q x c : image q (Blob x c) (Blob x c)
  | image_kept q c : downward c -> image q (Link c) (Link c)
  | image_put d f c t n : ~ downward c -> target_path d c = Some t -> at_path root t = Some n -> link_free n ->
      image (d ++ [f]) (Link c) n
  | image_dir q es ms : Forall2 (fun e m => fst e = fst m /\ image (q ++ [fst e]) (snd e) (snd m)) es ms ->
      image q (Dir es) (Dir ms).

  Lemma link_free_entry es f n : NoDup (map fst es) -> link_free (Dir es) -> In (f, n) es -> link_free n.
  Proof.
    intros N L I' p c E. apply (L (f :: p) c). unfold at_path in *. cbn [entry_bypath].
    rewrite (entry_of_NoDup f es n) by assumption. exact E.
  Qed.

  Lemma image_link_free n : proper n -> link_free n -> forall q m, image q n m -> m = n.
  Proof.
    induction n as [x c|c|es IH] using node_ind'; intros P L q m H.
    - inversion H. reflexivity.
    - exfalso. now apply (L [] c).
    - inversion H as [| | |q0 es0 ms F]; subst. f_equal. inversion P as [| |? ND PL PS]; subst.
      assert (forall l ms, (forall e, In e l -> In e es) ->
        Forall2 (fun e m => fst e = fst m /\ image (q ++ [fst e]) (snd e) (snd m)) l ms -> ms = l) as K.
      { intros l. induction l as [|[f n] l IHl]; intros ms' S F'; inversion F' as [|? [g m] ? ms0 [E G] F0]; subst; [reflexivity|].
        cbn in E, G. subst g. f_equal.
        - f_equal. assert (In (f, n) es) as I' by (apply S; now left).
          apply (proj1 (Forall_forall _ _) IH (f, n) I' (PS _ _ I')
            (link_free_entry es f n ND L I') (q ++ [f]) m G).
        - apply IHl; [|exact F0]. intros e He. apply S. now right. }
      apply K; [auto|exact F].
  Qed.

  Definition real_req (q : request) : Prop :=
    exists ns n, at_path root ns = Some n /\ q_path q = path_str ns /\ (q_info q = None \/ q_info q = Some n).
  Definition real_val (p : string) (r : result) : Prop :=
    exists ns n, at_path root ns = Some n /\ p = path_str ns /\ image ns n (r_node r).

  Lemma real_val_at ns n r : at_path root ns = Some n -> real_val (path_str ns) r -> image ns n (r_node r).
  Proof.
    intros A (ns0 & n0 & A0 & E & V).
    apply path_str_inj in E; [|eapply plain_at; eassumption|eapply plain_at; eassumption]. subst.
    rewrite A in A0. injection A0 as <-. exact V.
  Qed.

  Lemma known_partial_dir ns es : at_path root ns = Some (Dir es) ->
    resolve_known ResolvePartially (path_str ns) (Dir es) =
    Ask (map (fun e => mkReq (path_str (ns ++ [fst e])) (Some (snd e))) es)
      (fun vs => Set_ (mkRes (Dir (combine (map fst es) (map r_node vs))) (path_str ns))).
  Proof.
    intros A. pose proof (plain_at _ _ _ PR A) as P.
    pose proof (proper_at _ _ _ PR A) as PD. inversion PD as [| |? ND PL PS]; subst.
    cbn [resolve_known ignoring negb]. rewrite filter_all by (intros; apply orb_true_r).
    rewrite request_paths, request_names by assumption. reflexivity.
  Qed.

  Lemma known_partial_link d f c : at_path root (d ++ [f]) = Some (Link c) -> ~ downward c ->
    exists t, target_path d c = Some t /\
    resolve_known ResolvePartially (path_str (d ++ [f])) (Link c) =
    Ask [mkReq (path_str t) None] (fun vs => match vs with [v] => Set_ v | _ => Fail end).
  Proof.
    intros A N. pose proof (plain_at _ _ _ PR A) as P. apply Forall_app in P. destruct P as [P PF].
    inversion PF as [|? ? Pf _]; subst.
    destruct (ST _ _ _ A N) as (t & n & T & _). exists t. split; [exact T|].
    cbn [resolve_known ignoring partially andb]. rewrite confined_target, T by assumption. cbn [negb].
    destruct (PathIsNonUpwards c) eqn:U; [apply nonupwards_downward in U; contradiction|].
    unfold to_resolve. rewrite (target_norm _ _ _ t) by assumption. reflexivity.
  Qed.

  Lemma create_real ns n i : at_path root ns = Some n -> i = None \/ i = Some n ->
    create ResolvePartially root (mkReq (path_str ns) i) = resolve_known ResolvePartially (path_str ns) n.
  Proof.
    intros A I'. unfold create. cbn [q_info q_path]. destruct I' as [-> | ->]; [|reflexivity].
    rewrite get_at, A by (eapply plain_at; eassumption). reflexivity.
  Qed.

  Lemma real_safe q : real_req q -> safe real_req real_val (q_path q) (create ResolvePartially root q).
  Proof.
    intros (ns & n & A & E & I'). destruct q as [p i]. cbn [q_path q_info] in *. subst p.
    rewrite (create_real ns n i A I'). destruct n as [x c|c|es].
    - exists ns, (Blob x c). cbn. repeat split; [exact A|constructor].
    - destruct ns as [|f d _] using rev_ind; [injection A as A; rewrite A in NL; discriminate|].
      destruct (downward_dec c) as [D|D].
      + cbn [resolve_known ignoring partially andb]. destruct (PathIsConfined c _); [|exact I]. cbn [negb].
        rewrite (proj2 (nonupwards_downward c) D). exists (d ++ [f]), (Link c). repeat split; [exact A|].
        now apply image_kept.
      + destruct (known_partial_link d f c A D) as (t & T & ->).
        destruct (ST _ _ _ A D) as (t' & n & T' & AT & LF). rewrite T in T'. injection T' as <-. cbn [safe]. split.
        * constructor; [|constructor]. exists t, n. cbn. auto.
        * intros vs F. inversion F as [|? v ? vs0 G F0]; subst. inversion F0; subst. cbn [q_path] in G.
          apply (real_val_at t n) in G; [|exact AT].
          apply image_link_free in G; [|eapply proper_at; eassumption|exact LF].
          exists (d ++ [f]), (Link c). repeat split; [exact A|]. rewrite G.
          now apply (image_put d f c t).
    - rewrite known_partial_dir by exact A. pose proof (proper_at _ _ _ PR A) as PD.
      inversion PD as [| |? ND PL PS]; subst. cbn [safe].
      assert (forall f n, In (f, n) es -> at_path root (ns ++ [f]) = Some n) as K.
      { intros f n I''. rewrite at_snoc, A. now apply entry_of_NoDup. }
      split.
      + apply Forall_forall. intros k Hk. apply in_map_iff in Hk. destruct Hk as ([f m] & <- & Hk).
        exists (ns ++ [f]), m. cbn. auto.
      + intros vs F. exists ns, (Dir es). repeat split; [exact A|]. cbn [r_node]. apply image_dir.
        clear ND PL PS PD A I'. revert vs F.
        induction es as [|[f m] l IH]; intros vs F; cbn in F; inversion F as [|? v ? vs0 G F0]; subst; constructor.
        * cbn. split; [reflexivity|]. apply real_val_at; [apply K; now left|exact G].
        * apply IH; [|exact F0]. intros g k Hk. apply K. now right.
  Qed.

  Lemma partial_image m : resolves_to ResolvePartially root m -> image [] root m.
  Proof.
    intros (p & V). destruct (run_safe real_req real_val (create ResolvePartially root) start) as [_ K].
    - exists [], root. cbn. auto.
    - exact real_safe.
    - apply K in V. change "." with (path_str []) in V. apply (real_val_at [] root) in V; [exact V|reflexivity].
  Qed.

  Lemma image_entry q es ms f : Forall2 (fun e m => fst e = fst m /\ image (q ++ [fst e]) (snd e) (snd m)) es ms ->
    match entry_of f es, entry_of f ms with
    | Some n, Some k => image (q ++ [f]) n k
    | None, None => True
    | _, _ => False
    end.
  Proof.
    induction 1 as [|[g n] [h k] es ms [E G] F IH]; cbn; [exact I|]. cbn in E, G. subst h.
    destruct (String.eqb_spec g f) as [->|_]; [exact G|exact IH].
  Qed.

  (** Corresponding objects. *)
  Definition matching (q : list string) (n : node) (q' : list string) (n' : node) : Prop :=
    (q' = q /\ image q n n') \/ (link_free n /\ n' = n).

  Lemma link_free_not c : ~ link_free (Link c).
  Proof. intros H. now apply (H [] c). Qed.

  Lemma link_free_entry_of es f n : link_free (Dir es) -> entry_of f es = Some n -> link_free n.
  Proof.
    intros L E p c A. apply (L (f :: p) c). unfold at_path in *. cbn [entry_bypath]. rewrite E. exact A.
  Qed.

  Lemma forward m : image [] root m -> forall p q n, leads root p q n ->
    exists q' n', leads m p q' n' /\ matching q n q' n'.
  Proof.
    intros IM p q n L.
    induction L as [|p q es f n L IH E N|p q es f c t q1 n L IH E T L' IH'].
    - exists [], m. split; [constructor|]. left. auto.
    - destruct IH as (q' & n' & LM & [[-> G]|[LF ->]]).
      + inversion G as [| | |q0 es0 ms F]; subst. pose proof (image_entry _ _ _ f F) as X. rewrite E in X.
        destruct (entry_of f ms) as [k|] eqn:EM; [|contradiction]. exists (q ++ [f]), k. split; [|left; auto].
        eapply leads_entry; [exact LM|exact EM|]. destruct n; try discriminate; inversion X; reflexivity.
      + exists (q' ++ [f]), n. split; [eapply leads_entry; eassumption|]. right. split; [|reflexivity].
        eapply link_free_entry_of; eassumption.
    - destruct IH as (q' & n' & LM & [[-> G]|[LF ->]]).
      + inversion G as [| | |q0 es0 ms F]; subst. pose proof (image_entry _ _ _ f F) as X. rewrite E in X.
        destruct (entry_of f ms) as [k|] eqn:EM; [|contradiction].
        inversion X as [|q0 c0 D|d f0 c0 t0 n0 D T0 A0 LF E0|]; subst.
        * destruct IH' as (q2 & n2 & L2 & M2). exists q2, n2. split; [|exact M2].
          eapply leads_link; eassumption.
        * apply snoc_inj in E0. destruct E0 as [-> ->]. rewrite T in T0. injection T0 as <-.
          assert (is_link k = false) as NK by (destruct k; try reflexivity; now apply link_free_not in LF).
          destruct (leads_det _ _ _ _ (leads_real root t k A0 NK) _ _ L') as [-> ->].
          exists (q ++ [f]), k. split; [eapply leads_entry; eassumption|]. right. auto.
      + exfalso. eapply link_free_not. eapply link_free_entry_of; eassumption.
  Qed.

  Lemma backward m : image [] root m -> forall p q' n', leads m p q' n' ->
    exists q n, leads root p q n /\ matching q n q' n'.
  Proof.
    intros IM p q' n' L.
    induction L as [|p q' ms f k L IH E N|p q' ms f c t q1 n1 L IH E T L' IH'].
    - exists [], root. split; [constructor|]. left. auto.
    - destruct IH as (q & n & LR & [[-> G]|[LF <-]]).
      + pose proof (leads_not_link root NL _ _ _ LR) as NN.
        inversion G as [|q0 c0 D|d f0 c0 t0 n0 D T0 A0 LF E0|q0 es ms0 F]; subst; try discriminate.
        pose proof (image_entry _ _ _ f F) as X. rewrite E in X.
        destruct (entry_of f es) as [n|] eqn:EE; [|contradiction].
        inversion X as [q0 x c|q0 c0 D|d f0 c0 t0 n0 D T0 A0 LF E0|q0 es0 ms0 F0]; subst; try discriminate.
        * exists (q ++ [f]), (Blob x c). split; [eapply leads_entry; eauto|]. left. auto.
        * apply snoc_inj in E0. destruct E0 as [-> ->].
          exists t0, k. split; [|right; auto].
          eapply leads_link; [exact LR|exact EE|exact T0|]. now apply leads_real.
        * exists (q ++ [f]), (Dir es0). split; [eapply leads_entry; eauto|]. left. auto.
      + exists (q ++ [f]), k. split; [eapply leads_entry; eassumption|]. right. split; [|reflexivity].
        eapply link_free_entry_of; eassumption.
    - destruct IH as (q & n & LR & [[-> G]|[LF <-]]).
      + pose proof (leads_not_link root NL _ _ _ LR) as NN.
        inversion G as [|q0 c0 D|d f0 c0 t0 n0 D T0 A0 LF E0|q0 es ms0 F]; subst; try discriminate.
        pose proof (image_entry _ _ _ f F) as X. rewrite E in X.
        destruct (entry_of f es) as [n|] eqn:EE; [|contradiction].
        inversion X as [|q0 c0 D|d f0 c0 t0 n0 D T0 A0 LF E0|]; subst.
        * destruct IH' as (q2 & n2 & L2 & M2). exists q2, n2. split; [|exact M2]. eapply leads_link; eassumption.
        * now apply link_free_not in LF.
      + exfalso. eapply link_free_not. eapply link_free_entry_of; eassumption.
  Qed.

  Lemma matching_blob q n q' x c : is_link n = false -> matching q n q' (Blob x c) -> n = Blob x c.
  Proof. intros N [[_ G]|[_ <-]]; [|reflexivity]. inversion G; subst; [reflexivity|discriminate]. Qed.
  Lemma matching_blob' q q' n' x c : matching q (Blob x c) q' n' -> n' = Blob x c.
  Proof. intros [[_ G]|[_ ->]]; [|reflexivity]. now inversion G. Qed.
  Lemma image_names q es ms : Forall2 (fun e m => fst e = fst m /\ image (q ++ [fst e]) (snd e) (snd m)) es ms ->
    map fst ms = map fst es.
  Proof. induction 1 as [|e m es ms [E _] F IH]; [reflexivity|]. cbn. now f_equal. Qed.
  Lemma matching_dir q n q' ms : is_link n = false -> matching q n q' (Dir ms) ->
    exists es, n = Dir es /\ map fst es = map fst ms.
  Proof.
    intros N [[_ G]|[_ <-]]; [|eauto]. inversion G; subst; [discriminate|]. eexists. split; [reflexivity|].
    symmetry. eapply image_names. eassumption.
  Qed.
  Lemma matching_dir' q es q' n' : matching q (Dir es) q' n' -> exists ms, n' = Dir ms /\ map fst ms = map fst es.
  Proof.
    intros [[_ G]|[_ ->]]; [|eauto]. inversion G; subst. eexists. split; [reflexivity|].
    eapply image_names. eassumption.
  Qed.

  Theorem partial_meaning m : resolves_to ResolvePartially root m -> forall p,
    (forall x c, (exists q, leads m p q (Blob x c)) <-> (exists q, leads root p q (Blob x c))) /\
    (forall fs, (exists q ms, leads m p q (Dir ms) /\ map fst ms = fs) <->
                (exists q es, leads root p q (Dir es) /\ map fst es = fs)).
  Proof.
    intros R p. apply partial_image in R. split.
    - intros x c. split; intros (q & L).
      + destruct (backward m R _ _ _ L) as (q0 & n & L0 & M). exists q0.
        apply matching_blob in M; [now subst|]. eapply leads_not_link; eassumption.
      + destruct (forward m R _ _ _ L) as (q0 & n & L0 & M). exists q0. apply matching_blob' in M. now subst.
    - intros fs. split.
      + intros (q & ms & L & <-). destruct (backward m R _ _ _ L) as (q0 & n & L0 & M).
        apply matching_dir in M; [|eapply leads_not_link; eassumption]. destruct M as (es & -> & E). eauto.
      + intros (q & es & L & <-). destruct (forward m R _ _ _ L) as (q0 & n & L0 & M).
        apply matching_dir' in M. destruct M as (ms & -> & E). eauto.
  Qed.

  (** Success. *)
  Context (CO : confined root).
  Let asked := asked (create ResolvePartially root) start.
  Let value := value (create ResolvePartially root) start.

  Lemma partial_dir_value ns es i : at_path root ns = Some (Dir es) -> asked (mkReq (path_str ns) i) ->
    i = None \/ i = Some (Dir es) ->
    (forall f n, In (f, n) es -> at_path root (ns ++ [f]) = Some n ->
       asked (mkReq (path_str (ns ++ [f])) (Some n)) -> exists r, value (path_str (ns ++ [f])) r) ->
    exists r, value (path_str ns) r.
  Proof.
    intros A Q I' H.
    pose proof (create_real ns _ i A I') as EC. rewrite known_partial_dir in EC by exact A.
    pose proof (proper_at _ _ _ PR A) as PD. inversion PD as [| |? ND PL PS]; subst.
    assert (exists vs, answers (create ResolvePartially root) start
      (map (fun e => mkReq (path_str (ns ++ [fst e])) (Some (snd e))) es) vs) as (vs & AN).
    { assert (forall f n, In (f, n) es -> exists r, value (path_str (ns ++ [f])) r) as K.
      { intros f n I''. apply (H f n I'').
        - rewrite at_snoc, A. now apply entry_of_NoDup.
        - eapply asked_by; [exact Q|]. rewrite EC. apply asks_now. apply in_map_iff. now exists (f, n). }
      clear - K. induction es as [|[f n] es IH]; [exists []; constructor|].
      destruct (K f n ltac:(now left)) as (r & V). destruct IH as (vs & AN); [intros g k Hk; eapply K; right; exact Hk|].
      exists (r :: vs). apply answers_cons; assumption. }
    eexists. change (path_str ns) with (q_path (mkReq (path_str ns) i)). apply value_of; [exact Q|].
    rewrite EC. eapply yields_ask; [exact AN|]. apply yields_set.
  Qed.

  Lemma link_free_value n : link_free n -> forall ns i, at_path root ns = Some n -> asked (mkReq (path_str ns) i) ->
    i = None \/ i = Some n -> exists r, value (path_str ns) r.
  Proof.
    induction n as [x c|c|es IH] using node_ind'; intros LF ns i A Q I'.
    - eexists. change (path_str ns) with (q_path (mkReq (path_str ns) i)) at 1. apply value_of; [exact Q|].
      rewrite (create_real ns _ i A I'). apply yields_set.
    - now apply link_free_not in LF.
    - eapply partial_dir_value; [exact A|exact Q|exact I'|]. intros f n In_ Af Qf.
      pose proof (proper_at _ _ _ PR A) as PD. inversion PD as [| |? ND PL PS]; subst.
      apply (proj1 (Forall_forall _ _) IH (f, n) In_) with (i := Some n); [|exact Af|exact Qf|auto].
      eapply link_free_entry; eassumption.
  Qed.

  Lemma partial_value n : forall ns i, at_path root ns = Some n -> asked (mkReq (path_str ns) i) ->
    i = None \/ i = Some n -> exists r, value (path_str ns) r.
  Proof.
    induction n as [x c|c|es IH] using node_ind'; intros ns i A Q I'.
    - eexists. change (path_str ns) with (q_path (mkReq (path_str ns) i)) at 1. apply value_of; [exact Q|].
      rewrite (create_real ns _ i A I'). apply yields_set.
    - destruct ns as [|f d _] using rev_ind; [injection A as A; rewrite A in NL; discriminate|].
      pose proof (create_real _ _ i A I') as EC. destruct (downward_dec c) as [D|D].
      + destruct (CO d f c A) as [t T]. pose proof (plain_at _ _ _ PR A) as P. apply Forall_app in P.
        destruct P as [P PF]. inversion PF as [|? ? Pf _]; subst.
        eexists. change (path_str (d ++ [f])) with (q_path (mkReq (path_str (d ++ [f])) i)). apply value_of; [exact Q|].
        rewrite EC. cbn [resolve_known ignoring partially andb]. rewrite confined_target, T by assumption. cbn [negb].
        rewrite (proj2 (nonupwards_downward c) D). apply yields_set.
      + destruct (known_partial_link d f c A D) as (t & T & EK). rewrite EK in EC.
        destruct (ST d f c A D) as (t' & n & T' & AT & LF). rewrite T in T'. injection T' as <-.
        destruct (link_free_value n LF t None AT) as (r & V); [|auto|].
        { eapply asked_by; [exact Q|]. rewrite EC. apply asks_now. now left. }
        exists r. change (path_str (d ++ [f])) with (q_path (mkReq (path_str (d ++ [f])) i)). apply value_of; [exact Q|].
        rewrite EC. apply (yields_ask _ _ _ _ [r]); [|apply yields_set]. apply answers_cons; [exact V|constructor].
    - eapply partial_dir_value; [exact A|exact Q|exact I'|]. intros f n In_ Af Qf.
      apply (proj1 (Forall_forall _ _) IH (f, n) In_) with (i := Some n); auto.
  Qed.

  Theorem partial_succeeds : exists m, resolves_to ResolvePartially root m.
  Proof.
    destruct (partial_value root [] None) as ([m p] & V); [reflexivity|apply asked_first|auto|].
    exists m, p. exact V.
  Qed.
End Settled.
