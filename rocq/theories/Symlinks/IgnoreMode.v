(** Ignoring special entries: links are left out, everything else stays. *)
From Coq Require Import String Ascii List Bool Lia.
From Verif Require Import Path.Model Path.Spec Symlinks.Model Symlinks.Spec Symlinks.Paths Symlinks.Follow Symlinks.Runs
  Symlinks.Complete.
Import ListNotations.
Local Open Scope string_scope.
Local Open Scope list_scope.

Fixpoint node_ind' (P : node -> Prop) (PB : forall x c, P (Blob x c)) (PL : forall c, P (Link c))
  (PD : forall es, Forall (fun e => P (snd e)) es -> P (Dir es)) (n : node) : P n :=
  match n with
  | Blob x c => PB x c
  | Link c => PL c
  | Dir es => PD es ((fix all (l : list (string * node)) : Forall (fun e => P (snd e)) l :=
                        match l with
                        | [] => Forall_nil _
                        | e :: r => Forall_cons e (node_ind' P PB PL PD (snd e)) (all r)
                        end) es)
  end.

Definition kept (es : list (string * node)) := filter (fun e => negb (is_link (snd e))) es.

Lemma without_links_dir es :
  without_links (Dir es) = Dir (map (fun e => (fst e, without_links (snd e))) (kept es)).
Proof.
  cbn [without_links]. f_equal. unfold kept. induction es as [|[f [x c|c|es']] es IH]; [reflexivity| | |];
    cbn [filter snd is_link negb map fst]; [|exact IH|].
  - f_equal. exact IH.
  - f_equal. exact IH.
Qed.

Section IgnoreMode.
  Context (root : node) (PR : proper root) (NL : is_link root = false).

  Definition plain_req (q : request) : Prop :=
    exists ns n, at_path root ns = Some n /\ is_link n = false /\ q_path q = path_str ns /\
      (q_info q = None \/ q_info q = Some n).
  Definition plain_val (p : string) (r : result) : Prop :=
    exists ns n, at_path root ns = Some n /\ p = path_str ns /\ r_node r = without_links n.

  Lemma plain_val_at ns n r : at_path root ns = Some n -> plain_val (path_str ns) r -> r_node r = without_links n.
  Proof.
    intros A (ns0 & n0 & A0 & E & V).
    apply path_str_inj in E; [|eapply plain_at; eassumption|eapply plain_at; eassumption]. subst.
    rewrite A in A0. injection A0 as <-. exact V.
  Qed.

  Lemma kept_proper ns es : at_path root ns = Some (Dir es) ->
    NoDup (map fst es) /\ (forall f n, In (f, n) (kept es) -> plain f /\ is_link n = false /\ at_path root (ns ++ [f]) = Some n).
  Proof.
    intros A. pose proof (proper_at _ _ _ PR A) as P. inversion P as [| |? ND PL PS]; subst. split; [exact ND|].
    intros f n I'. unfold kept in I'. apply filter_In in I'. destruct I' as [I' N]. cbn in N.
    apply negb_true_iff in N. split; [eauto|]. split; [exact N|]. rewrite at_snoc, A. now apply entry_of_NoDup.
  Qed.

  Lemma known_ignore ns es : at_path root ns = Some (Dir es) ->
    resolve_known Ignore (path_str ns) (Dir es) =
    Ask (map (fun e => mkReq (path_str (ns ++ [fst e])) (Some (snd e))) (kept es))
      (fun vs => Set_ (mkRes (Dir (combine (map fst (kept es)) (map r_node vs))) (path_str ns))).
  Proof.
    intros A. pose proof (plain_at _ _ _ PR A) as P. destruct (kept_proper ns es A) as [_ K].
    cbn [resolve_known ignoring negb].
    rewrite (filter_ext _ (fun e => negb (is_link (snd e)))) by (intros; apply orb_false_r).
    fold (kept es). rewrite request_paths, request_names; [reflexivity|exact P| |exact P|]; intros f n I'; now apply K in I'.
  Qed.

  Lemma ignore_safe q : plain_req q -> safe plain_req plain_val (q_path q) (create Ignore root q).
  Proof.
    intros (ns & n & A & N & E & I'). unfold create.
    assert (match q_info q with Some n => Some n | None => GetObjectByPathFromTree root (q_path q) end = Some n) as ->.
    { destruct I' as [-> | ->]; [|reflexivity]. rewrite E, get_at; [exact A|eapply plain_at; eassumption]. }
    rewrite E. destruct n as [x c|c|es]; [|discriminate|].
    - cbn. exists ns, (Blob x c). cbn. auto.
    - rewrite known_ignore by exact A. destruct (kept_proper ns es A) as [ND K]. cbn [safe]. split.
      + apply Forall_forall. intros k Hk. apply in_map_iff in Hk. destruct Hk as ([f m] & <- & Hk).
        apply K in Hk. exists (ns ++ [f]), m. cbn. intuition.
      + intros vs F. exists ns, (Dir es). split; [exact A|]. split; [reflexivity|]. cbn [r_node].
        rewrite without_links_dir. f_equal. clear ND. revert vs F.
        induction (kept es) as [|[f m] l IH]; intros vs F; cbn in F; inversion F as [|? v ? vs0 G F0]; subst; [reflexivity|].
        cbn. destruct (K f m ltac:(now left)) as (_ & _ & Af). rewrite (plain_val_at _ _ _ Af G). f_equal.
        apply IH; [|exact F0]. intros g k Hk. apply K. now right.
  Qed.

  Lemma ignore_sound m : resolves_to Ignore root m -> m = without_links root.
  Proof.
    intros (p & V). destruct (run_safe plain_req plain_val (create Ignore root) start) as [_ K].
    - exists [], root. cbn. auto.
    - exact ignore_safe.
    - apply K in V. change "." with (path_str []) in V. apply (plain_val_at [] root) in V; [exact V|reflexivity].
  Qed.

  Lemma create_ignore ns n i : at_path root ns = Some n -> i = None \/ i = Some n ->
    create Ignore root (mkReq (path_str ns) i) = resolve_known Ignore (path_str ns) n.
  Proof.
    intros A I'. unfold create. cbn [q_info q_path]. destruct I' as [-> | ->]; [|reflexivity].
    rewrite get_at, A by (eapply plain_at; eassumption). reflexivity.
  Qed.

  Lemma ignore_value n : forall ns i, at_path root ns = Some n -> is_link n = false ->
    asked (create Ignore root) start (mkReq (path_str ns) i) -> i = None \/ i = Some n ->
    value (create Ignore root) start (path_str ns) (mkRes (without_links n) (path_str ns)).
  Proof.
    induction n as [x c|c|es IH] using node_ind'; intros ns i A N Q I'; [| discriminate |];
      change (path_str ns) with (q_path (mkReq (path_str ns) i)) at 1;
      (apply value_of; [exact Q|]); rewrite (create_ignore ns _ i A I').
    - apply yields_set.
    - rewrite known_ignore by exact A. destruct (kept_proper ns es A) as [ND K].
      assert (forall e, In e (kept es) ->
        value (create Ignore root) start (path_str (ns ++ [fst e]))
          (mkRes (without_links (snd e)) (path_str (ns ++ [fst e])))) as V.
      { intros [f m] He. cbn [fst snd]. destruct (K f m He) as (_ & Nm & Af).
        unfold kept in He. pose proof He as He0. apply filter_In in He. destruct He as [He _].
        apply (proj1 (Forall_forall _ _) IH (f, m) He (ns ++ [f]) (Some m)); auto.
        eapply asked_by; [exact Q|]. rewrite (create_ignore ns _ i A I'), known_ignore by exact A. apply asks_now. apply in_map_iff. now exists (f, m). }
      apply (yields_ask _ _ _ _ (map (fun e => mkRes (without_links (snd e)) (path_str (ns ++ [fst e]))) (kept es))).
      + clear - V. induction (kept es) as [|e l IHl]; cbn [map]; [constructor|]. constructor.
        * apply V. now left.
        * apply IHl. intros e' H. apply V. now right.
      + rewrite without_links_dir. rewrite map_map. cbn [r_node].
        assert (combine (map fst (kept es)) (map (fun e => without_links (snd e)) (kept es)) =
          map (fun e => (fst e, without_links (snd e))) (kept es)) as ->; [|apply yields_set].
        clear. induction (kept es) as [|e l IHl]; [reflexivity|]. cbn. now f_equal.
  Qed.

  Lemma ignore_succeeds : resolves_to Ignore root (without_links root).
  Proof.
    exists (path_str []). change "." with (path_str []). apply (ignore_value root [] None); auto. apply asked_first.
  Qed.
End IgnoreMode.

(** What is seen in the tree without links: exactly the objects of the tree that are not links. *)
Lemma without_links_at n : proper n -> forall p, (forall x c, at_path (without_links n) p = Some (Blob x c) <-> at_path n p = Some (Blob x c)) /\
  ((exists ms, at_path (without_links n) p = Some (Dir ms)) <-> (exists es, at_path n p = Some (Dir es))) /\
  (is_link n = false -> forall c, at_path (without_links n) p <> Some (Link c)).
Proof.
  induction n as [x c|c|es IH] using node_ind'; intros P p.
  - cbn [without_links]. split; [reflexivity|]. split; [reflexivity|]. intros _ c0. destruct p; discriminate.
  - cbn [without_links]. split; [reflexivity|]. split; [reflexivity|]. discriminate.
  - rewrite without_links_dir. destruct p as [|f p].
    + cbn. split; [split; discriminate|]. split; [|discriminate]. split; eauto.
    + unfold at_path. cbn [entry_bypath].
      inversion P as [| |? ND PL PS]; subst.
      assert (forall l, (forall e, In e l -> In e es) -> NoDup (map fst l) ->
        entry_of f (map (fun e => (fst e, without_links (snd e))) (kept l)) =
        match entry_of f l with
        | Some m => if is_link m then None else Some (without_links m)
        | None => None
        end) as K.
      { unfold kept. induction l as [|[g m] l IHl]; intros S N; [reflexivity|]. inversion N; subst.
        cbn [filter snd entry_of]. destruct (String.eqb_spec g f) as [->|NE].
        - destruct (is_link m) eqn:Lm; cbn [negb].
          + rewrite IHl; [|intros e He; apply S; now right|assumption].
            destruct (entry_of f l) as [k|] eqn:Ek; [|reflexivity]. exfalso. apply entry_of_In in Ek.
            apply H1. apply in_map_iff. now exists (f, k).
          + cbn [map fst snd entry_of]. now rewrite String.eqb_refl.
        - assert (entry_of f (map (fun e => (fst e, without_links (snd e)))
             (if negb (is_link m) then (g, m) :: filter (fun e => negb (is_link (snd e))) l
              else filter (fun e => negb (is_link (snd e))) l)) =
            entry_of f (map (fun e => (fst e, without_links (snd e))) (filter (fun e => negb (is_link (snd e))) l))) as ->.
          { destruct (negb (is_link m)); [|reflexivity]. cbn [map fst snd entry_of].
            destruct (String.eqb_spec g f); [congruence|reflexivity]. }
          apply IHl; [intros e He; apply S; now right|assumption]. }
      rewrite (K es) by auto. destruct (entry_of f es) as [m|] eqn:E.
      * apply entry_of_In in E. pose proof (proj1 (Forall_forall _ _) IH _ E (PS _ _ E) p) as (A & B & C).
        cbn [snd] in *. destruct (is_link m) eqn:Lm; [|split; [exact A|split; [exact B|intros _; now apply C]]].
        destruct m; try discriminate. split; [|split; [|discriminate]].
        -- intros x c. split; [discriminate|]. destruct p; discriminate.
        -- split; [intros [? ?]; discriminate|]. intros [es' Hx]. destruct p; discriminate.
      * split; [split; discriminate|]. split; [|discriminate]. split; intros [? ?]; discriminate.
Qed.
