(** * Reading the rc files: proofs *)

From Coq Require Import String Ascii List Arith Lia Bool ZArith NArith.
Import ListNotations.
From Verif.Rc Require Import Model Spec.
Open Scope string_scope.
Open Scope list_scope.
Open Scope nat_scope.

Ltac dres H :=
  match type of H with
  | bind ?r _ = Ok _ =>
      let x := fresh "x" in let E := fresh "E" in
      destruct r as [x|] eqn:E; [cbn [bind] in H|discriminate H]
  end.

(** ** Objects *)
Lemma find_app k a b : find k (a ++ b) = match find k a with Some v => Some v | None => find k b end.
Proof.
  induction a as [|[k' v] r IH]; cbn [app find]; [reflexivity|].
  destruct (String.eqb k k'); auto.
Qed.

Lemma has_find k m : has k m = match find k m with Some _ => true | None => false end.
Proof.
  induction m as [|[k' v] r IH]; cbn [has existsb find fst]; [reflexivity|].
  destruct (String.eqb k k'); cbn [orb]; auto.
Qed.

Lemma find_filter (f : string -> bool) k m :
  find k (filter (fun e => f (fst e)) m) = if f k then find k m else None.
Proof.
  induction m as [|[k' v] r IH]; cbn [filter find fst]; [now destruct (f k)|].
  destruct (String.eqb_spec k k') as [->|N].
  - destruct (f k') eqn:Fk; cbn [find].
    + now rewrite String.eqb_refl.
    + exact IH.
  - destruct (f k') eqn:Fk; cbn [find]; [|exact IH].
    apply String.eqb_neq in N. now rewrite N.
Qed.

Lemma find_update k b d :
  find k (update b d) = match find k d with Some v => Some v | None => find k b end.
Proof.
  unfold update. rewrite find_app, (find_filter (fun x => negb (has x d)) k b), has_find.
  destruct (find k d); reflexivity.
Qed.

Lemma find_erase k k' m : k <> k' -> find k (erase k' m) = find k m.
Proof.
  intros N. unfold erase. rewrite (find_filter (fun x => negb (String.eqb k' x)) k m).
  assert (Q : String.eqb k' k = false) by (apply String.eqb_neq; congruence).
  now rewrite Q.
Qed.

Lemma find_erase_same k m : find k (erase k m) = None.
Proof.
  unfold erase. rewrite (find_filter (fun x => negb (String.eqb k x)) k m).
  now rewrite String.eqb_refl.
Qed.

Lemma find_one k k' v : find k [(k', v)] = if String.eqb k k' then Some v else None.
Proof. cbn [find]. reflexivity. Qed.

Lemma get_at k m : at_key k m (get k m).
Proof.
  unfold at_key, entry, get. destruct (find k m); auto.
Qed.

Lemma at_key_get k m v : at_key k m v -> get k m = v.
Proof.
  unfold at_key, entry, get. intros [H|[H ->]]; now rewrite H.
Qed.

(** ** Locations *)
Lemma read_location_spec E ws v r : read_location E ws v = Ok r <-> located E ws v r.
Proof.
  split.
  - destruct v as [| | | | |m]; cbn [read_location read_location_object]; try discriminate.
    + intros [= <-]. constructor.
    + destruct (find "path" m) as [[| | |path| |]|] eqn:Hp; try discriminate.
      destruct (find "root" m) as [[| | |root| |]|] eqn:Hr; try discriminate.
      assert (B : forall base,
        match find "base" m with Some (VStr b) => Some b | Some _ => None | None => Some "." end = Some base ->
        entry "base" m (VStr base) \/ (find "base" m = None /\ base = ".")).
      { intros base. unfold entry.
        destruct (find "base" m) as [[| | |b| |]|]; try discriminate; intros [= <-]; auto. }
      destruct (match find "base" m with Some (VStr b) => Some b | Some _ => None | None => Some "." end)
        as [base|]; [|discriminate].
      specialize (B base eq_refl).
      destruct (String.eqb_spec root "workspace") as [->|N1].
      * destruct ws as [w|]; intros [= <-].
        -- apply (loc_at E (Some w) m "workspace" path base w Hr Hp B). left. auto.
        -- now apply (loc_outside E None m path base Hr Hp B).
      * destruct (String.eqb_spec root "home") as [->|N2].
        -- intros [= <-]. apply (loc_at E ws m "home" path base (home E) Hr Hp B). auto.
        -- destruct (String.eqb_spec root "system") as [->|N3].
           ++ intros [= <-]. apply (loc_at E ws m "system" path base "/" Hr Hp B). auto.
           ++ intros [= <-]. apply (loc_at E ws m root path base "" Hr Hp B). auto 10.
  - intros H. destruct H as [|m root path base dir Hr Hp B D|m path base Hr Hp B D];
      cbn [read_location read_location_object].
    + reflexivity.
    + unfold entry in *. rewrite Hp, Hr.
      assert (Q : match find "base" m with Some (VStr b) => Some b | Some _ => None | None => Some "." end
                  = Some base).
      { destruct B as [->|[-> ->]]; reflexivity. }
      rewrite Q.
      destruct D as [[-> ->]|[[-> ->]|[[-> ->]|[N1 [N2 [N3 ->]]]]]]; try reflexivity.
      apply String.eqb_neq in N1, N2, N3. now rewrite N1, N2, N3.
    + unfold entry in *. rewrite Hp, Hr.
      assert (Q : match find "base" m with Some (VStr b) => Some b | Some _ => None | None => Some "." end
                  = Some base).
      { destruct B as [->|[-> ->]]; reflexivity. }
      rewrite Q. now subst ws.
Qed.

Lemma first_file_spec E F ws l r : first_file E F ws l = Ok r <-> first_existing E F ws l r.
Proof.
  split.
  - revert r. induction l as [|v t IH]; intros r H; cbn [first_file] in H.
    + injection H as <-. left. split; [reflexivity|constructor].
    + dres H. apply read_location_spec in E0.
      assert (S : (exists a b, x = Some (a, b) /\ is_file F a = true /\ r = Some (a, b))
                  \/ (skipped E F ws v /\ first_file E F ws t = Ok r)).
      { destruct x as [[a b]|].
        - destruct (is_file F a) eqn:Q.
          + injection H as <-. left. exists a, b. auto.
          + right. split; [|exact H]. exists (Some (a, b)). split; [exact E0|].
            intros a' b' [= <- <-]. exact Q.
        - right. split; [|exact H]. exists None. split; [exact E0|discriminate]. }
      destruct S as [[a [b [-> [Q ->]]]]|[S H']].
      * right. exists [], v, t, a, b. split; [reflexivity|]. split; [constructor|]. auto.
      * destruct (IH r H') as [[-> A]|[l1 [v' [l2 [a [b [-> [A [L [Q ->]]]]]]]]]].
        -- left. split; [reflexivity|]. now constructor.
        -- right. exists (v :: l1), v', l2, a, b. split; [reflexivity|].
           split; [now constructor|]. auto.
  - assert (S : forall v t, skipped E F ws v ->
        first_file E F ws (v :: t) = first_file E F ws t).
    { intros v t [r' [L Q]]. apply read_location_spec in L. cbn [first_file]. rewrite L. cbn [bind].
      destruct r' as [[a b]|]; [|reflexivity]. now rewrite (Q a b eq_refl). }
    intros [[-> A]|[l1 [v [l2 [a [b [-> [A [L [Q ->]]]]]]]]]].
    + induction A as [|v t Hv A IH]; [reflexivity|]. rewrite S; auto.
    + induction A as [|v' t Hv A IH]; cbn [app].
      * apply read_location_spec in L. cbn [first_file]. rewrite L. cbn [bind]. now rewrite Q.
      * rewrite S; auto.
Qed.

(** ** Which files take part *)
Lemma obtain_spec E F n p m : obtain_rc_config E F n p = Ok m <-> first_rc E F n p m.
Proof.
  unfold obtain_rc_config. split.
  - destruct n.
    + intros [= <-]. constructor.
    + destruct p as [p|].
      * destruct (is_file F p) eqn:Q; cbn [bind]; [|discriminate]. rewrite Q.
        destruct (content F p) as [[| | | | |m']|] eqn:C; try discriminate.
        intros [= <-]. now apply rc_given.
      * cbn [bind]. destruct (is_file F (canon E (join (home E) ".just-mrrc"))) eqn:Q.
        -- destruct (content F _) as [[| | | | |m']|] eqn:C; try discriminate.
           intros [= <-]. eapply rc_default; eauto.
        -- intros [= <-]. eapply rc_missing; eauto.
  - intros H. destruct H as [p|p m Q C|p m -> Q C|p -> Q]; cbn [bind].
    + reflexivity.
    + rewrite Q. cbn [bind]. now rewrite Q, C.
    + now rewrite Q, C.
    + now rewrite Q.
Qed.

Lemma merge_extra_spec E F ws l rc c :
  merge_extra E F ws l rc = Ok c <->
  exists ms, overlays E F ws l ms /\ c = fold_left merge_mrrc ms rc.
Proof.
  split.
  - revert rc. induction l as [|v t IH]; intros rc H; cbn [merge_extra] in H.
    + injection H as <-. exists []. split; [constructor|reflexivity].
    + dres H. apply read_location_spec in E0. destruct x as [[a b]|].
      * destruct (is_file F a) eqn:Q.
        -- destruct (content F a) as [[| | | | |m]|] eqn:C; try discriminate.
           destruct (IH _ H) as [ms [O ->]]. exists (m :: ms). split; [|reflexivity].
           eapply ov_file; eauto.
        -- destruct (IH _ H) as [ms [O ->]]. exists ms. split; [|reflexivity].
           apply ov_skip; [|exact O]. exists (Some (a, b)). split; [exact E0|].
           intros a' b' [= <- <-]. exact Q.
      * destruct (IH _ H) as [ms [O ->]]. exists ms. split; [|reflexivity].
        apply ov_skip; [|exact O]. exists None. split; [exact E0|discriminate].
  - intros [ms [O ->]]. revert rc. induction O as [|v r l [x [L Q]] O IH|v a b m r l L Q C O IH]; intros rc.
    + reflexivity.
    + apply read_location_spec in L. cbn [merge_extra]. rewrite L. cbn [bind].
      destruct x as [[a b]|]; [|apply IH]. rewrite (Q a b eq_refl). apply IH.
    + apply read_location_spec in L. cbn [merge_extra]. rewrite L. cbn [bind].
      rewrite Q, C. cbn [fold_left]. apply IH.
Qed.

Lemma effective_spec E F ws n p c :
  effective_rc E F ws n p = Ok c <->
  exists m l, rc_files E F ws n p (m :: l) /\ c = fold_left merge_mrrc l m.
Proof.
  unfold effective_rc. split.
  - intros H. dres H. rename x into m. apply obtain_spec in E0.
    destruct (get "rc files" m) as [| | | |l|] eqn:G; try discriminate.
    + injection H as <-. exists m, []. split; [|reflexivity].
      exists m, [], VNone. split; [reflexivity|]. split; [exact E0|].
      split; [rewrite <- G; apply get_at|]. now left.
    + apply merge_extra_spec in H. destruct H as [ms [O ->]]. exists m, ms. split; [|reflexivity].
      exists m, ms, (VList l). split; [reflexivity|]. split; [exact E0|].
      split; [rewrite <- G; apply get_at|]. right. exists l. auto.
  - intros [m [l [[m' [l' [v [[= <- <-] [R [K D]]]]]] ->]]].
    apply obtain_spec in R. rewrite R. cbn [bind]. rewrite (at_key_get _ _ _ K).
    destruct D as [[-> ->]|[locs [-> O]]]; [reflexivity|].
    apply merge_extra_spec. eauto.
Qed.

(** ** Overlaying *)
Lemma find_merge k b d :
  find k (merge_mrrc b d) =
  if String.eqb k "invocation log" then Some (VMap (update (as_map (get k b)) (as_map (get k d))))
  else if String.eqb k "just files" then Some (VMap (update (as_map (get k b)) (as_map (get k d))))
  else if String.eqb k "just args" then Some (VMap (update (as_map (get k b)) (as_map (get k d))))
  else if String.eqb k "distdirs" then Some (VList (as_list (get k d) ++ as_list (get k b)))
  else match find k d with Some v => Some v | None => find k b end.
Proof.
  assert (U : forall m, update [] m = m).
  { intros m. unfold update. cbn [filter]. apply app_nil_r. }
  unfold merge_mrrc, k_accumulating, k_local_merge. cbn [fold_left].
  rewrite !find_update, !find_one, !U.
  destruct (String.eqb_spec k "invocation log") as [->|]; [reflexivity|].
  destruct (String.eqb_spec k "just files") as [->|]; [reflexivity|].
  destruct (String.eqb_spec k "just args") as [->|]; [reflexivity|].
  destruct (String.eqb_spec k "distdirs") as [->|]; reflexivity.
Qed.

Lemma last_entry_cons k ms m v :
  last_entry k (m :: ms) v <->
  (last_entry k ms v \/ (entry k m v /\ Forall (fun m' => find k m' = None) ms)).
Proof.
  unfold last_entry. split.
  - intros [[|y a] [x [b [Q [Ex N]]]]]; cbn [app] in Q; injection Q as -> ->.
    + right. auto.
    + left. exists a, x, b. auto.
  - intros [[a [x [b [-> [Ex N]]]]]|[Ex N]].
    + exists (m :: a), x, b. auto.
    + exists [], m, ms. auto.
Qed.

(** The last entry by folding. *)
Definition lastf (k : string) (ms : list (list (string * value))) (o : option value) : option value :=
  fold_left (fun acc m => match find k m with Some v => Some v | None => acc end) ms o.

Lemma lastf_none k ms o : Forall (fun m => find k m = None) ms -> lastf k ms o = o.
Proof.
  intros A. revert o. induction A as [|m t Hm A IH]; intros o; [reflexivity|].
  cbn [lastf fold_left]. rewrite Hm. apply IH.
Qed.

Lemma lastf_spec k ms o v :
  lastf k ms o = Some v <->
  (last_entry k ms v \/ (o = Some v /\ Forall (fun m => find k m = None) ms)).
Proof.
  revert o. induction ms as [|m t IH]; intros o.
  - cbn [lastf fold_left]. split.
    + intros ->. right. auto.
    + intros [[a [x [b [Q _]]]]|[-> _]]; [destruct a; discriminate|reflexivity].
  - change (lastf k (m :: t) o) with
      (lastf k t (match find k m with Some v => Some v | None => o end)).
    rewrite IH, last_entry_cons. unfold entry.
    destruct (find k m) as [w|] eqn:Q.
    + split.
      * intros [H|[[= <-] A]]; [now left; left|]. left. right. auto.
      * intros [[H|[[= <-] A]]|[_ A]]; [now left|now right|].
        inversion A. congruence.
    + split.
      * intros [H|[-> A]]; [now left; left|]. right. split; [reflexivity|]. now constructor.
      * intros [[H|[[=] A]]|[-> A]]; [now left|]. right. split; [reflexivity|]. now inversion A.
Qed.

Definition special (k : string) : Prop :=
  k = "distdirs" \/ k = "just args" \/ k = "just files" \/ k = "invocation log".

Lemma fold_plain k l m : ~ special k ->
  find k (fold_left merge_mrrc l m) = lastf k l (find k m).
Proof.
  intros N. revert m. induction l as [|d t IH]; intros m; [reflexivity|].
  cbn [fold_left]. rewrite IH, find_merge. unfold special in N.
  assert (N1 : k <> "invocation log") by intuition.
  assert (N2 : k <> "just files") by intuition.
  assert (N3 : k <> "just args") by intuition.
  assert (N4 : k <> "distdirs") by intuition.
  apply String.eqb_neq in N1, N2, N3, N4. rewrite N1, N2, N3, N4. reflexivity.
Qed.

Lemma plain_spec k l m v : ~ special k ->
  entry k (fold_left merge_mrrc l m) v <-> last_entry k (m :: l) v.
Proof.
  intros N. unfold entry at 1. rewrite fold_plain by exact N.
  rewrite lastf_spec, last_entry_cons. reflexivity.
Qed.

Lemma as_list_at k m : as_list (get k m) = list_at k m.
Proof. unfold get, list_at. destruct (find k m) as [[]|]; reflexivity. Qed.

Lemma as_map_at k m : as_map (get k m) = object_at k m.
Proof. unfold get, object_at. destruct (find k m) as [[]|]; reflexivity. Qed.

Lemma distdirs_step b d :
  find "distdirs" (merge_mrrc b d) = Some (VList (list_at "distdirs" d ++ list_at "distdirs" b)).
Proof. rewrite find_merge, !as_list_at. reflexivity. Qed.

Lemma distdirs_fold l m :
  list_at "distdirs" (fold_left merge_mrrc l m)
  = List.concat (map (list_at "distdirs") (rev (m :: l))).
Proof.
  revert m. induction l as [|d t IH]; intros m.
  - cbn. now rewrite app_nil_r.
  - cbn [fold_left]. rewrite IH. cbn [rev]. rewrite !map_app, !concat_app. cbn [map List.concat].
    rewrite !app_nil_r, <- app_assoc. f_equal.
    unfold list_at at 1. rewrite distdirs_step. reflexivity.
Qed.

Lemma distdirs_spec l m : l <> [] ->
  entry "distdirs" (fold_left merge_mrrc l m)
    (VList (List.concat (map (list_at "distdirs") (rev (m :: l))))).
Proof.
  intros N. unfold entry.
  assert (Q : exists x, find "distdirs" (fold_left merge_mrrc l m) = Some (VList x)).
  { destruct (exists_last N) as [t [d ->]]. rewrite fold_left_app. cbn [fold_left].
    eexists. apply distdirs_step. }
  destruct Q as [x Q]. rewrite Q. do 2 f_equal.
  rewrite <- distdirs_fold. unfold list_at. now rewrite Q.
Qed.

Definition merged_key (k : string) : Prop :=
  k = "just args" \/ k = "just files" \/ k = "invocation log".

Lemma merged_step k b d : merged_key k ->
  find k (merge_mrrc b d) = Some (VMap (update (object_at k b) (object_at k d))).
Proof.
  intros K. rewrite find_merge, !as_map_at.
  destruct K as [->|[->| ->]]; reflexivity.
Qed.

Lemma merged_fold k l m s : merged_key k ->
  find s (object_at k (fold_left merge_mrrc l m)) =
  lastf s (map (object_at k) l) (find s (object_at k m)).
Proof.
  intros K. revert m. induction l as [|d t IH]; intros m; [reflexivity|].
  cbn [fold_left map]. rewrite IH. unfold lastf at 2. cbn [fold_left].
  unfold lastf. f_equal.
  unfold object_at at 1. rewrite (merged_step k m d K), find_update. reflexivity.
Qed.

Lemma merged_spec k l m : merged_key k -> l <> [] ->
  exists x, entry k (fold_left merge_mrrc l m) (VMap x) /\
    forall s v, entry s x v <-> last_entry s (map (object_at k) (m :: l)) v.
Proof.
  intros K N.
  assert (Q : exists x, find k (fold_left merge_mrrc l m) = Some (VMap x)).
  { destruct (exists_last N) as [t [d ->]]. rewrite fold_left_app. cbn [fold_left].
    eexists. now apply merged_step. }
  destruct Q as [x Q]. exists x. split; [exact Q|]. intros s v.
  assert (X : object_at k (fold_left merge_mrrc l m) = x) by (unfold object_at; now rewrite Q).
  unfold entry at 1. rewrite <- X, merged_fold by exact K.
  cbn [map]. rewrite lastf_spec, last_entry_cons. reflexivity.
Qed.

(** ** The settings *)
Lemma opt_location_spec E ws g v o :
  opt_location E ws g v = Ok o -> chosen g (path_at E ws v) o.
Proof.
  unfold opt_location. destruct g as [x|].
  - intros [= <-]. now apply ch_given.
  - intros H. dres H. injection H as <-. apply ch_rc; [reflexivity|].
    exists x. split; [now apply read_location_spec|reflexivity].
Qed.

Lemma opt_checkout_spec E F ws g v o :
  opt_checkout E F ws g v = Ok o -> chosen g (file_at E F ws v) o.
Proof.
  unfold opt_checkout. destruct g as [x|].
  - intros [= <-]. now apply ch_given.
  - intros H. dres H. apply read_location_spec in E0. apply ch_rc; [reflexivity|].
    destruct x as [[a b]|].
    + destruct (is_file F a) eqn:Q; [|discriminate]. injection H as <-.
      split; [exists (Some (a, b)); auto|]. now intros p [= <-].
    + injection H as <-. split; [exists None; auto|discriminate].
Qed.

Lemma add_distdirs_spec E F ws l acc o :
  add_distdirs E F ws l acc = Ok o ->
  exists new, o = acc ++ new /\ paths_of E ws (is_dir F) l new.
Proof.
  revert acc. induction l as [|v t IH]; intros acc H; cbn [add_distdirs] in H.
  - injection H as <-. exists []. split; [now rewrite app_nil_r|constructor].
  - dres H. apply read_location_spec in E0. destruct x as [[a b]|].
    + destruct (is_dir F a) eqn:Q.
      * destruct (IH _ H) as [new [-> P]]. exists (a :: new). split; [now rewrite <- app_assoc|].
        eapply ps_kept; eauto.
      * destruct (IH _ H) as [new [-> P]]. exists new. split; [reflexivity|]. eapply ps_dropped; eauto.
    + destruct (IH _ H) as [new [-> P]]. exists new. split; [reflexivity|]. now apply ps_ignored.
Qed.

Lemma read_distdirs_spec E F ws g v o :
  read_distdirs E F ws g v = Ok o ->
  exists new, o = g ++ new /\ paths_at E ws (is_dir F) v new.
Proof.
  destruct v as [| | | |l|]; cbn [read_distdirs]; try discriminate.
  - intros [= <-]. exists []. split; [now rewrite app_nil_r|]. left. auto.
  - intros H. destruct (add_distdirs_spec _ _ _ _ _ _ H) as [new [-> P]].
    exists new. split; [reflexivity|]. right. eauto.
Qed.

Lemma add_log_files_spec E ws l acc o :
  add_log_files E ws l acc = Ok o ->
  exists new, o = acc ++ new /\ paths_of E ws (fun _ => true) l new.
Proof.
  revert acc. induction l as [|v t IH]; intros acc H; cbn [add_log_files] in H.
  - injection H as <-. exists []. split; [now rewrite app_nil_r|constructor].
  - dres H. apply read_location_spec in E0. destruct x as [[a b]|].
    + destruct (IH _ H) as [new [-> P]]. exists (a :: new). split; [now rewrite <- app_assoc|].
      eapply ps_kept; eauto.
    + destruct (IH _ H) as [new [-> P]]. exists new. split; [reflexivity|]. now apply ps_ignored.
Qed.

Lemma read_log_files_spec E ws g v o :
  read_log_files E ws g v = Ok o ->
  exists new, o = g ++ new /\ paths_at E ws (fun _ => true) v new.
Proof.
  destruct v as [| | | |l|]; cbn [read_log_files]; try discriminate.
  - intros [= <-]. exists []. split; [now rewrite app_nil_r|]. left. auto.
  - intros H. destruct (add_log_files_spec _ _ _ _ _ H) as [new [-> P]].
    exists new. split; [reflexivity|]. right. eauto.
Qed.

Lemma search_spec E F ws v o :
  read_optional_location_list E F ws v = Ok o -> search_at E F ws v o.
Proof.
  destruct v as [| | | |l|]; cbn [read_optional_location_list]; try discriminate.
  - intros [= <-]. left. auto.
  - intros H. dres H. injection H as <-. right. exists l, x.
    split; [reflexivity|]. split; [now apply first_file_spec|reflexivity].
Qed.

Lemma strings_spec l o : strings l = Ok o -> l = map VStr o.
Proof.
  revert o. induction l as [|v t IH]; intros o; cbn [strings].
  - intros [= <-]. reflexivity.
  - destruct v; try discriminate. intros H. dres H. injection H as <-.
    cbn [map]. now rewrite <- (IH _ eq_refl).
Qed.

Lemma read_props_spec g v o :
  read_props g v = Ok o -> exists new, o = g ++ new /\ strings_at v new.
Proof.
  destruct v as [| | | |l|]; cbn [read_props]; try discriminate.
  - intros [= <-]. exists []. split; [now rewrite app_nil_r|]. left. auto.
  - intros H. dres H. injection H as <-. exists x. split; [reflexivity|].
    right. now rewrite <- (strings_spec _ _ E).
Qed.

Lemma opt_unsigned_spec g v o :
  opt_unsigned g v = Ok o -> chosen g (number_at (fun z => (z mod 4294967296)%Z) v) o.
Proof.
  unfold opt_unsigned. destruct g as [x|].
  - intros [= <-]. now apply ch_given.
  - destruct v; try discriminate; intros [= <-]; apply ch_rc; try reflexivity.
    + left. auto.
    + right. eexists. split; reflexivity.
Qed.

Lemma opt_level_spec g v o :
  opt_level g v = Ok o -> chosen g (number_at (fun z => Z.min (Z.max z 0) 6) v) o.
Proof.
  unfold opt_level. destruct g as [x|].
  - intros [= <-]. now apply ch_given.
  - destruct v; try discriminate; intros [= <-]; apply ch_rc; try reflexivity.
    + left. auto.
    + right. eexists. split; reflexivity.
Qed.

Lemma opt_string_spec g v o : opt_string g v = Ok o -> chosen g (string_at v) o.
Proof.
  unfold opt_string. destruct g as [x|].
  - intros [= <-]. now apply ch_given.
  - destruct v; try discriminate; intros [= <-]; apply ch_rc; try reflexivity.
    + left. auto.
    + right. eexists. split; reflexivity.
Qed.

Lemma opt_flag_spec g v o :
  opt_flag g v = Ok o ->
  (g = true /\ o = true) \/ (g = false /\ ((v = VNone /\ o = false) \/ v = VBool o)).
Proof.
  unfold opt_flag. destruct g.
  - intros [= <-]. now left.
  - destruct v; try discriminate; intros [= <-]; right; split; auto.
Qed.

Lemma opt_launcher_spec g v o :
  opt_launcher g v = Ok o ->
  exists l, o = Some l /\
    (g = Some l \/ (g = None /\ ((v = VNone /\ l = ["env"; "--"]) \/ v = VList (map VStr l)))).
Proof.
  unfold opt_launcher. destruct g as [x|].
  - intros [= <-]. exists x. auto.
  - destruct v as [| | | |l|]; try discriminate.
    + intros [= <-]. eexists. split; [reflexivity|]. right. split; [reflexivity|]. left. auto.
    + intros H. dres H. injection H as <-. exists x. split; [reflexivity|].
      right. split; [reflexivity|]. right. now rewrite <- (strings_spec _ _ E).
Qed.

Lemma sub_map_spec v m : sub_map v = Ok m -> options_at v m.
Proof.
  destruct v; cbn [sub_map]; try discriminate; intros [= <-]; [left|right]; auto.
Qed.

Lemma opt_absent_spec E F ws g v o :
  opt_absent E F ws g v = Ok o ->
  chosen g (fun o => (exists vs r, v = VList vs /\ first_existing E F ws vs r /\ o = option_map fst r)
                     \/ ((forall vs, v <> VList vs) /\ o = None)) o.
Proof.
  unfold opt_absent. destruct g as [x|].
  - intros [= <-]. now apply ch_given.
  - intros H. apply ch_rc; [reflexivity|].
    destruct v as [| | | |l|]; try (injection H as <-; right; split; [discriminate|reflexivity]).
    dres H. injection H as <-. left. exists l, x. split; [reflexivity|].
    split; [now apply first_file_spec|reflexivity].
Qed.

Lemma find_config_spec E F ws v r :
  find_config E F ws v = Ok r ->
  exists l, (v = VList l \/ (v = VNone /\ l =
      [VMap [("root", VStr "workspace"); ("path", VStr "repos.json")];
       VMap [("root", VStr "workspace"); ("path", VStr "etc/repos.json")];
       VMap [("root", VStr "home"); ("path", VStr ".just-repos.json")];
       VMap [("root", VStr "system"); ("path", VStr "etc/just-repos.json")]]))
    /\ first_existing E F ws l r.
Proof.
  destruct v as [| | | |l|]; cbn [find_config]; try discriminate; intros H.
  - eexists. split; [right; split; reflexivity|]. now apply first_file_spec.
  - exists l. split; [now left|]. now apply first_file_spec.
Qed.

Lemma read_arg_lists_spec m t :
  read_arg_lists m = Ok t ->
  forall s l, alookup s t = Some l <-> entry s m (VList (map VStr l)).
Proof.
  revert t. induction m as [|[c v] r IH]; intros t; cbn [read_arg_lists].
  - intros [= <-] s l. cbn. unfold entry. cbn [find]. split; discriminate.
  - destruct v as [| | | |vs|]; try discriminate. intros H. dres H. dres H. injection H as <-.
    intros s l. unfold entry. cbn [alookup find]. destruct (String.eqb s c).
    + rewrite (strings_spec _ _ E). split.
      * intros [= <-]. reflexivity.
      * intros [= H]. f_equal. revert l H. clear. induction x as [|a x IHx]; intros [|b l]; try discriminate.
        -- reflexivity.
        -- cbn [map]. intros [= -> H]. f_equal. auto.
    + apply (IH _ eq_refl).
Qed.

Lemma alookup_app s a b :
  alookup s (a ++ b) = match alookup s a with Some x => Some x | None => alookup s b end.
Proof.
  induction a as [|[k v] r IH]; cbn [app alookup]; [reflexivity|].
  destruct (String.eqb s k); auto.
Qed.

Lemma read_arg_lists_total m t s :
  read_arg_lists m = Ok t ->
  (exists l, alookup s t = Some l) \/ (alookup s t = None /\ find s m = None).
Proof.
  revert t. induction m as [|[k w] r IH]; intros t; cbn [read_arg_lists].
  - intros [= <-]. right. auto.
  - destruct w as [| | | |vs|]; try discriminate. intros H. dres H. dres H. injection H as <-.
    cbn [alookup find]. destruct (String.eqb s k); [left; eauto|]. now apply IH.
Qed.
