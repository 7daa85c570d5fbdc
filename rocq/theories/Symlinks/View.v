(** What is seen in a completely resolved tree; when complete resolution succeeds. *)
From Coq Require Import String Ascii List Bool Lia.
From Verif Require Import Path.Model Path.Spec Symlinks.Model Symlinks.Spec Symlinks.Paths Symlinks.Follow Symlinks.Runs
  Symlinks.Complete.
Import ListNotations.
Local Open Scope string_scope.
Local Open Scope list_scope.

Lemma entry_of_names f (es ms : list (string * node)) : map fst ms = map fst es ->
  (entry_of f es = None <-> entry_of f ms = None).
Proof.
  revert es. induction ms as [|[g m] ms IH]; intros [|[h n] es] E; try discriminate; [tauto|].
  cbn in E. injection E as <- E. cbn. destruct (String.eqb g f); [split; discriminate|]. auto.
Qed.

Section View.
  Context (root m : node) (PR : proper root) (NL : is_link root = false) (R : resolved root [] root m).

  Lemma seen_means p k : at_path m p = Some k -> means root p k.
  Proof.
    revert k. induction p as [|f p IH] using rev_ind; intros k E.
    - injection E as <-. exists [], root. split; [constructor|exact R].
    - rewrite at_snoc in E. destruct (at_path m p) as [[| |ms]|] eqn:A; try discriminate.
      apply (means_entry root p ms f k); [apply IH; reflexivity|now apply entry_of_In].
  Qed.

  Lemma leads_seen p : forall q n, leads root p q n -> exists k, at_path m p = Some k /\ resolved root q n k.
  Proof.
    induction p as [|f p IH] using rev_ind; intros q n L.
    - apply leads_nil in L. destruct L as [-> ->]. exists m. split; [reflexivity|exact R].
    - pose proof L as L0. apply leads_inv in L. destruct L as (q0 & es & L & D).
      destruct (IH _ _ L) as (k & A & RK). inversion RK as [|q1 es1 ms RS]; subst.
      rewrite at_snoc, A. pose proof (resolved_names _ _ _ _ RS) as N.
      destruct (entry_of f ms) as [k|] eqn:EM.
      + apply entry_of_In in EM. destruct (resolved_entry _ _ _ _ _ _ RS EM) as (q' & n' & L' & R').
        apply (leads_shift root p q0 es f) in L'; [|exact L].
        destruct (leads_det _ _ _ _ L0 _ _ L') as [-> ->]. eauto.
      + apply (entry_of_names f es ms N) in EM. destruct D as [(F & _)|(c & t & F & _)]; congruence.
  Qed.

  Lemma view_blob p x c : at_path m p = Some (Blob x c) <-> exists q, leads root p q (Blob x c).
  Proof.
    split.
    - intros E. destruct (seen_means _ _ E) as (q & n & L & RK). inversion RK; subst. eauto.
    - intros (q & L). destruct (leads_seen _ _ _ L) as (k & A & RK). inversion RK; subst. exact A.
  Qed.

  Lemma view_dir p fs : (exists ms, at_path m p = Some (Dir ms) /\ map fst ms = fs) <->
    (exists q es, leads root p q (Dir es) /\ map fst es = fs).
  Proof.
    split.
    - intros (ms & E & <-). destruct (seen_means _ _ E) as (q & n & L & RK). inversion RK as [|q1 es1 ms1 RS]; subst.
      exists q, es1. split; [exact L|]. symmetry. eapply resolved_names. exact RS.
    - intros (q & es & L & <-). destruct (leads_seen _ _ _ L) as (k & A & RK). inversion RK as [|q1 es1 ms1 RS]; subst.
      exists ms1. split; [exact A|]. eapply resolved_names. exact RS.
  Qed.

  Lemma view_link p c : at_path m p <> Some (Link c).
  Proof. intros E. apply seen_means in E. now apply means_no_link in E. Qed.

  (** All paths of the root, links included, lead somewhere. *)
  Lemma view_all p n : at_path root p = Some n -> exists q k, leads root p q k.
  Proof.
    destruct p as [|f p _] using rev_ind; [exists [], root; constructor|]. intros A.
    rewrite at_snoc in A. destruct (at_path root p) as [[| |es]|] eqn:AP; try discriminate.
    destruct (leads_seen _ _ _ (leads_real root p _ AP eq_refl)) as (k & AM & RK).
    inversion RK as [|q1 es1 ms RS]; subst. pose proof (resolved_names _ _ _ _ RS) as N.
    destruct (entry_of f ms) as [k|] eqn:EM; [|apply (entry_of_names f es ms N) in EM; congruence].
    assert (at_path m (p ++ [f]) = Some k) as AK by (rewrite at_snoc, AM; exact EM).
    destruct (seen_means _ _ AK) as (q & n' & L & _). eauto.
  Qed.
End View.

(** ** Success *)

(** Every link names, component by component, an object of the tree: no link is passed on the way. *)
Definition direct (root : node) : Prop :=
  forall d f c, at_path root (d ++ [f]) = Some (Link c) ->
    exists t n, target_path d c = Some t /\ at_path root t = Some n.

Section Success.
  Context (root : node) (PR : proper root) (NL : is_link root = false) (DI : direct root).
  Let asked := asked (create ResolveCompletely root) start.
  Let value := value (create ResolveCompletely root) start.
  Let yields := yields (create ResolveCompletely root) start.

  Definition informed (p : list string) (n : node) : Prop :=
    asked (mkReq (path_str p) None) \/ asked (mkReq (path_str p) (Some n)).

  Lemma informed_value p n r : Forall plain p -> at_path root p = Some n -> informed p n ->
    yields (resolve_known ResolveCompletely (path_str p) n) r -> value (path_str p) r.
  Proof.
    intros P A [Q|Q] Y;
      [change (path_str p) with (q_path (mkReq (path_str p) None))
      |change (path_str p) with (q_path (mkReq (path_str p) (Some n)))];
      (apply value_of; [exact Q|]); unfold create; cbn [q_info q_path]; [|exact Y].
    rewrite get_at, A by exact P. exact Y.
  Qed.

  Lemma informed_asks p n q : Forall plain p -> at_path root p = Some n -> informed p n ->
    asks (create ResolveCompletely root) start (resolve_known ResolveCompletely (path_str p) n) q -> asked q.
  Proof.
    intros P A [Q|Q] Y; (eapply asked_by; [exact Q|]); unfold create; cbn [q_info q_path]; [|exact Y].
    rewrite get_at, A by exact P. exact Y.
  Qed.

  Lemma chain p q n r : leads root p q n -> forall n0, at_path root p = Some n0 -> informed p n0 ->
    (informed q n -> value (path_str q) r) -> value (path_str p) r.
  Proof.
    induction 1 as [|p q es f n L IH E N|p q es f c t q' n L IH E T L' IH']; intros n0 A Q K.
    - injection A as <-. auto.
    - pose proof (plain_at _ _ _ PR A) as P. rewrite at_snoc in A.
      destruct (at_path root p) as [[| |es0]|] eqn:AP; try discriminate.
      destruct (leads_det _ _ _ _ (leads_real root p _ AP eq_refl) _ _ L) as [-> EE]. injection EE as ->.
      rewrite E in A. injection A as <-. auto.
    - pose proof (plain_at _ _ _ PR A) as P. pose proof A as A0. rewrite at_snoc in A.
      destruct (at_path root p) as [[| |es0]|] eqn:AP; try discriminate.
      destruct (leads_det _ _ _ _ (leads_real root p _ AP eq_refl) _ _ L) as [-> EE]. injection EE as ->.
      rewrite E in A. injection A as <-.
      destruct (DI _ _ _ A0) as (t' & n1 & T' & AT). rewrite T in T'. injection T' as <-.
      apply Forall_app in P. destruct P as [P PF]. inversion PF as [|? ? Pf _]; subst.
      assert (forall k, asks (create ResolveCompletely root) start
         (resolve_known ResolveCompletely (path_str (p ++ [f])) (Link c)) k ->
         asked k) as AA.
      { intros k Hk. apply (informed_asks (p ++ [f]) (Link c)); [apply Forall_app; split; assumption|exact A0|exact Q|exact Hk]. }
      assert (resolve_known ResolveCompletely (path_str (p ++ [f])) (Link c) =
        Ask [mkReq (path_str t) None] (fun vs => match vs with [v] => Set_ v | _ => Fail end)) as EK.
      { cbn [resolve_known ignoring partially andb]. rewrite confined_target, T by assumption. cbn [negb].
        unfold to_resolve. rewrite (target_norm _ _ _ t) by assumption. reflexivity. }
      assert (value (path_str t) r) as VT.
      { apply (IH' n1 AT); [|exact K]. left. apply AA. rewrite EK. apply asks_now. now left. }
      apply (informed_value _ (Link c)); [apply Forall_app; split; assumption|exact A0|exact Q|].
      rewrite EK. apply (yields_ask _ _ _ _ [r]); [|apply yields_set]. apply answers_cons; [exact VT|constructor].
  Qed.

  Lemma success_aux :
    (forall q n m, resolved root q n m -> forall p n0, leads root p q n -> at_path root p = Some n0 ->
       informed p n0 -> value (path_str p) (mkRes m (path_str q))) /\
    (forall q es ms, resolved_entries root q es ms -> (forall f n, In (f, n) es -> plain f) -> Forall plain q ->
       (forall f n, In (f, n) es -> at_path root (q ++ [f]) = Some n /\ informed (q ++ [f]) n) ->
       exists vs, answers (create ResolveCompletely root) start
          (map (fun e => mkReq (path_str (q ++ [fst e])) (Some (snd e))) es) vs /\
          combine (map fst es) (map r_node vs) = ms).
  Proof.
    apply (resolved_both root
      (fun q n m _ => forall p n0, leads root p q n -> at_path root p = Some n0 ->
         informed p n0 -> value (path_str p) (mkRes m (path_str q)))
      (fun q es ms _ => (forall f n, In (f, n) es -> plain f) -> Forall plain q ->
         (forall f n, In (f, n) es -> at_path root (q ++ [f]) = Some n /\ informed (q ++ [f]) n) ->
         exists vs, answers (create ResolveCompletely root) start
           (map (fun e => mkReq (path_str (q ++ [fst e])) (Some (snd e))) es) vs /\
           combine (map fst es) (map r_node vs) = ms)).
    - intros q x c p n0 L A Q. eapply chain; [exact L|exact A|exact Q|]. intros IQ.
      pose proof (leads_at _ _ _ _ L) as AQ.
      eapply informed_value; [exact (plain_at _ _ _ PR AQ)|exact AQ|exact IQ|]. cbn. apply yields_set.
    - intros q es ms RS IH p n0 L A Q. eapply chain; [exact L|exact A|exact Q|]. intros IQ.
      pose proof (leads_at _ _ _ _ L) as AQ. pose proof (plain_at _ _ _ PR AQ) as P.
      pose proof (proper_at _ _ _ PR AQ) as PD. inversion PD as [| |? ND PL PS]; subst.
      assert (resolve_known ResolveCompletely (path_str q) (Dir es) =
        Ask (map (fun e => mkReq (path_str (q ++ [fst e])) (Some (snd e))) es)
          (fun vs => Set_ (mkRes (Dir (combine (map fst es) (map r_node vs))) (path_str q)))) as EK.
      { cbn [resolve_known ignoring negb]. rewrite filter_all by (intros; apply orb_true_r).
        rewrite request_paths, request_names by assumption. reflexivity. }
      destruct IH as (vs & AN & EC); [exact PL|exact P| |].
      + intros f n I'. split.
        * rewrite at_snoc, AQ. now apply entry_of_NoDup.
        * right. apply (informed_asks q (Dir es)); [exact P|exact AQ|exact IQ|]. rewrite EK. apply asks_now.
          apply in_map_iff. now exists (f, n).
      + eapply informed_value; [exact P|exact AQ|exact IQ|]. rewrite EK. eapply yields_ask; [exact AN|].
        rewrite EC. apply yields_set.
    - intros q _ _ _. exists []. split; [constructor|reflexivity].
    - intros q f n es q' n' m ms L R IH RS IHS PL P H.
      destruct IHS as (vs & AN & EC).
      + intros g k I'. apply (PL g k). now right.
      + exact P.
      + intros g k I'. apply H. now right.
      + destruct (H f n ltac:(now left)) as [A Q].
        exists (mkRes m (path_str q') :: vs). split; [|cbn; now rewrite EC].
        cbn [map fst snd]. apply answers_cons; [|exact AN]. cbn [q_path]. eapply IH; [exact L|exact A|exact Q].
  Qed.

  Theorem complete_succeeds m : resolved root [] root m -> resolves_to ResolveCompletely root m.
  Proof.
    intros R. exists ".". change "." with (path_str []).
    eapply (proj1 success_aux); [exact R|constructor|reflexivity|]. left. apply asked_first.
  Qed.
End Success.
