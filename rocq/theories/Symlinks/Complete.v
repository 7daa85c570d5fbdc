(** Complete resolution gives what following the links gives. *)
From Coq Require Import String Ascii List Bool Lia.
From Verif Require Import Path.Model Path.Spec Symlinks.Model Symlinks.Spec Symlinks.Paths Symlinks.Follow Symlinks.Runs.
Import ListNotations.
Local Open Scope string_scope.
Local Open Scope list_scope.

Lemma filter_all {A} (f : A -> bool) l : (forall x, f x = true) -> filter f l = l.
Proof. intros H. induction l as [|a l IH]; [reflexivity|]. cbn. rewrite H. now f_equal. Qed.

(** The names of the requests for the entries of a directory. *)
Lemma request_paths ns es : Forall plain ns -> (forall f (n : node), In (f, n) es -> plain f) ->
  map (fun e : string * node => to_resolve (append (path_str ns) (fst e)) (Some (snd e))) es =
  map (fun e => mkReq (path_str (ns ++ [fst e])) (Some (snd e))) es.
Proof.
  intros H P. apply map_ext_in. intros [f n] I'. unfold to_resolve. cbn [fst snd].
  rewrite norm_append; [reflexivity|exact H|eauto].
Qed.

Lemma request_names ns es : Forall plain ns -> (forall f (n : node), In (f, n) es -> plain f) ->
  map (fun q => filename (q_path q))
    (map (fun e : string * node => mkReq (path_str (ns ++ [fst e])) (Some (snd e))) es) = map fst es.
Proof.
  intros H P. rewrite map_map. apply map_ext_in. intros [f n] I'. cbn [q_path fst].
  apply filename_snoc; [exact H|eauto].
Qed.

Section Complete.
  Context (root : node) (PR : proper root) (NL : is_link root = false).

  Definition good_req (q : request) : Prop :=
    exists ns, Forall plain ns /\ q_path q = path_str ns /\
      match q_info q with
      | None => True
      | Some n => at_path root ns = Some n \/ means root ns n
      end.

  Definition good_val (p : string) (r : result) : Prop :=
    exists ns ns', Forall plain ns /\ p = path_str ns /\ means root ns (r_node r) /\
      Forall plain ns' /\ r_path r = path_str ns' /\ means root ns' (r_node r).

  Lemma good_val_at ns r : Forall plain ns -> good_val (path_str ns) r -> means root ns (r_node r).
  Proof.
    intros H (ns0 & ns' & H0 & E & M & _). apply path_str_inj in E; [|assumption|assumption]. now subst.
  Qed.

  Lemma answers_entries ns es vs : Forall plain ns -> (forall f (n : node), In (f, n) es -> plain f) ->
    Forall2 (fun q v => good_val (q_path q) v)
      (map (fun e : string * node => mkReq (path_str (ns ++ [fst e])) (Some (snd e))) es) vs ->
    Forall2 (fun e v => means root (ns ++ [fst e]) (r_node v)) es vs.
  Proof.
    intros H. revert vs. induction es as [|[f n] es IH]; intros vs P F; cbn in F; inversion F; subst; constructor.
    - apply good_val_at; [|assumption]. apply Forall_app. split; [exact H|]. constructor; [|constructor].
      eapply P. now left.
    - apply IH; [|assumption]. intros g m I'. eapply P. right. exact I'.
  Qed.

  Lemma combine_entries (Q : string -> node -> Prop) (es : list (string * node)) vs :
    Forall2 (fun e v => Q (fst e) (r_node v)) es vs ->
    map fst (combine (map fst es) (map r_node vs)) = map fst es /\
    (forall f m, In (f, m) (combine (map fst es) (map r_node vs)) -> Q f m).
  Proof.
    intros F. induction F as [|[f n] v es vs H F [IH1 IH2]]; [split; [reflexivity|intros ? ? []]|].
    cbn in *. split; [now f_equal|]. intros g m [E|I']; [injection E as <- <-; exact H|auto].
  Qed.

  Lemma combine_same (es : list (string * node)) vs :
    Forall2 (fun e v => r_node v = snd e) es vs -> combine (map fst es) (map r_node vs) = es.
  Proof.
    intros F. induction F as [|[f n] v es vs H F IH]; [reflexivity|]. cbn in *. rewrite H. now f_equal.
  Qed.

  Lemma known_safe ns ps n : Forall plain ns -> at_path root ns = Some n \/ means root ns n ->
    Forall plain ps -> (forall m, means root ns m -> means root ps m) ->
    safe good_req good_val (path_str ps) (resolve_known ResolveCompletely (path_str ns) n).
  Proof.
    intros H I' HP IM. destruct n as [x c|c|es]; cbn [resolve_known ignoring partially negb andb].
    - assert (means root ns (Blob x c)) as M.
      { destruct I' as [A|M]; [|exact M]. exists ns, (Blob x c). split; [now apply leads_real|constructor]. }
      cbn. exists ps, ns. cbn. auto 10.
    - assert (at_path root ns = Some (Link c)) as A.
      { destruct I' as [A|M]; [exact A|]. now apply means_no_link in M. }
      destruct ns as [|f ns _] using rev_ind; [cbn in A; injection A as A; rewrite A in NL; discriminate|].
      apply Forall_app in H. destruct H as [H P]. inversion P as [|? ? Pf _]; subst. clear P.
      rewrite confined_target by assumption. destruct (target_path ns c) as [t|] eqn:T; [|exact I].
      cbn [negb]. cbn [safe]. unfold to_resolve. rewrite (target_norm _ _ _ t) by assumption.
      pose proof (target_plain _ _ _ H T) as Ht. split.
      + constructor; [|constructor]. exists t. cbn. auto.
      + intros vs F. inversion F as [|? v ? vs0 G F0]; subst. inversion F0; subst. cbn [q_path] in G.
        pose proof G as (? & ns' & _ & _ & _ & P1 & P2 & P3).
        apply good_val_at in G; [|exact Ht]. cbn.
        exists ps, ns'. repeat split; try assumption. apply IM.
        rewrite at_snoc in A. destruct (at_path root ns) as [[| |es]|] eqn:AN; try discriminate.
        destruct G as (q & n & L & R). exists q, n. split; [|exact R].
        eapply leads_link; [apply leads_real; [exact AN|reflexivity]|exact A|exact T|exact L].
    - rewrite filter_all by (intros; apply orb_true_r).
      assert ((NoDup (map fst es)) /\ (forall f n, In (f, n) es -> plain f)) as [ND PL].
      { destruct I' as [A|M]; [|now apply (means_names root PR ns)].
        apply (proper_at _ _ _ PR) in A. inversion A; auto. }
      rewrite request_paths by assumption. cbn [safe]. split.
      + apply Forall_forall. intros q Hq. apply in_map_iff in Hq. destruct Hq as ([f n] & <- & Hq).
        exists (ns ++ [f]). cbn. split; [|split; [reflexivity|]].
        * apply Forall_app. split; [exact H|]. constructor; [eauto|constructor].
        * destruct I' as [A|M]; [left|right; eapply means_entry; eassumption].
          rewrite at_snoc, A. now apply entry_of_NoDup.
      + intros vs F. rewrite request_names by assumption. apply answers_entries in F; [|assumption|assumption].
        assert (means root ns (Dir (combine (map fst es) (map r_node vs)))) as M.
        { destruct I' as [A|M].
          - destruct (combine_entries (fun f m => means root (ns ++ [f]) m) es vs F) as [E Q].
            eapply means_real; eassumption.
          - rewrite combine_same; [exact M|].
            assert (forall l vs', (forall e, In e l -> In e es) ->
              Forall2 (fun e v => means root (ns ++ [fst e]) (r_node v)) l vs' ->
              Forall2 (fun e v => r_node v = snd e) l vs') as K.
            { induction l as [|[f n] l IHl]; intros vs' S F'; inversion F'; subst; constructor.
              - cbn in *. eapply means_det; [|eassumption]. eapply means_entry; [exact M|]. apply S. now left.
              - apply IHl; [|assumption]. intros e He. apply S. now right. }
            apply K; [auto|exact F]. }
        exists ps, ns. cbn. auto 10.
  Qed.

  Lemma create_safe q : good_req q -> safe good_req good_val (q_path q) (create ResolveCompletely root q).
  Proof.
    intros (ns & H & E & I'). unfold create. rewrite E.
    destruct (q_info q) as [n|] eqn:Q; [apply known_safe; auto|].
    rewrite get_at by exact H. destruct (at_path root ns) as [n|] eqn:A; [apply known_safe; auto|].
    cbn [ignoring]. destruct ns as [|f ns _] using rev_ind; [discriminate|].
    apply Forall_app in H. destruct H as [H P]. inversion P as [|? ? Pf _]; subst. clear P.
    cbn zeta. rewrite parent_differs by assumption. cbn [safe]. unfold to_resolve. rewrite parent_norm by assumption.
    split; [constructor; [|constructor]; exists ns; cbn; auto|].
    intros vs F. inversion F as [|? v ? vs0 G F0]; subst. inversion F0; subst. cbn [q_path] in G.
    pose proof G as (? & ns' & _ & _ & _ & P1 & P2 & P3). apply good_val_at in G; [|exact H].
    destruct (r_node v) as [| |ms]; [exact I|exact I|]. rewrite filename_snoc, get_entry by assumption.
    destruct (entry_of f ms) as [m|] eqn:EM; [|exact I]. apply entry_of_In in EM.
    rewrite P2, norm_append by assumption.
    assert (forall ns0, means root ns0 (Dir ms) -> means root (ns0 ++ [f]) m) as K
      by (intros; eapply means_entry; eassumption).
    apply known_safe.
    - apply Forall_app. split; [exact P1|repeat constructor; apply Pf].
    - right. now apply K.
    - apply Forall_app. split; [exact H|repeat constructor; apply Pf].
    - intros m' M'. rewrite (means_det root (ns' ++ [f]) m m'); [now apply K|now apply K|exact M'].
  Qed.

  Theorem complete_sound m : resolves_to ResolveCompletely root m -> resolved root [] root m.
  Proof.
    intros (p & V). destruct (run_safe good_req good_val (create ResolveCompletely root) start) as [_ K].
    - exists []. cbn. auto.
    - exact create_safe.
    - apply K in V. apply (good_val_at [] _ ltac:(constructor)) in V. cbn in V.
      destruct V as (q & n & L & R). apply leads_nil in L. destruct L as [-> ->]. exact R.
  Qed.
End Complete.
