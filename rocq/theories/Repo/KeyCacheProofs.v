(** What the cached keys of a repository configuration are worth. *)
From Coq Require Import List Arith Bool Lia Sorted.
From Verif.Repo Require Import Minimizer Bisim BisimProofs MinimizerEnd Keys KeysSpec
  KeysProofs KeyCache.
Import ListNotations.

Section K.
Context {T : Type}.
Variable H : nat -> nat.
Variable digest : graph -> T.

Lemma key_some K d r k :
  config_ok K -> bases_ok H K -> minimized (automaton_of H K) (Some d) ->
  repository_key digest K d r = Some k -> fixed K r.
Proof.
  intros OK BO M E. unfold repository_key in E.
  destruct (assoc (dedup d r) K); [|discriminate].
  unfold build_graph in E.
  destruct (add_to_graph _ K d _ (dedup d r)) as [| |s i] eqn:Ea; try discriminate.
  apply (run_fixed H K OK BO d M) in Ea. apply (fixed_u H K OK BO d M). exact Ea.
Qed.

Lemma key_equivalent K1 K2 d1 d2 r1 r2 :
  config_ok K1 -> bases_ok H K1 -> minimized (automaton_of H K1) (Some d1) ->
  config_ok K2 -> bases_ok H K2 -> minimized (automaton_of H K2) (Some d2) ->
  equivalent K1 K2 r1 r2 ->
  exists k, repository_key digest K1 d1 r1 = Some k /\ repository_key digest K2 d2 r2 = Some k.
Proof.
  intros OK1 BO1 M1 OK2 BO2 M2 E.
  pose proof (equivalent_u H K1 K2 OK1 OK2 BO1 BO2 d1 d2 M1 M2 _ _ E) as Eu.
  destruct (equivalent_same_graph H K1 K2 OK1 OK2 BO1 BO2 d1 d2 M1 M2 _ _ Eu)
    as (s1 & s2 & g & B1 & B2).
  destruct (equivalent_step _ _ _ _ Eu) as (base & m1 & m2 & E1 & E2 & _).
  exists (digest g). unfold repository_key. now rewrite E1, E2, B1, B2.
Qed.

Lemma key_fixed K d r :
  config_ok K -> bases_ok H K -> minimized (automaton_of H K) (Some d) ->
  fixed K r -> exists k, repository_key digest K d r = Some k.
Proof.
  intros OK BO M F.
  destruct (key_equivalent K K d d r r OK BO M OK BO M (equivalent_refl K r F)) as (k & E & _). eauto.
Qed.

(** The key does not depend on the order of enumeration. *)
Lemma key_unique K d d' r :
  config_ok K -> bases_ok H K ->
  minimized (automaton_of H K) (Some d) -> minimized (automaton_of H K) (Some d') ->
  repository_key digest K d r = repository_key digest K d' r.
Proof.
  intros OK BO M M'.
  assert (G : forall d1 d2 k, minimized (automaton_of H K) (Some d1) ->
    minimized (automaton_of H K) (Some d2) ->
    repository_key digest K d1 r = Some k -> repository_key digest K d2 r = Some k).
  { intros d1 d2 k M1 M2 E. pose proof (key_some K d1 r k OK BO M1 E) as F.
    destruct (key_equivalent K K d1 d2 r r OK BO M1 OK BO M2 (equivalent_refl K r F)) as (k' & E1 & E2).
    congruence. }
  destruct (repository_key digest K d r) as [k|] eqn:E.
  - symmetry. now apply (G d d').
  - destruct (repository_key digest K d' r) as [k|] eqn:E'; auto.
    apply (G d' d) in E'; auto. congruence.
Qed.

(** [k] is what the current configuration yields. *)
Definition right (K : config) (r : nat) (a : option T) : Prop :=
  forall d, minimized (automaton_of H K) (Some d) -> repository_key digest K d r = a.

Lemma right_fixed K r k :
  config_ok K -> bases_ok H K -> right K r (Some k) -> fixed K r.
Proof.
  intros OK BO R. destruct (minimized_exists (automaton_of H K)) as (o & M).
  { now apply automaton_wf. }
  destruct (minimized_spec _ _ (automaton_wf H K OK) M) as (d & -> & _).
  apply (key_some K d r k); auto.
Qed.

Lemma drop_In {A} r (l : list (nat * A)) x e : In (x, e) (drop r l) <-> In (x, e) l /\ x <> r.
Proof.
  unfold drop. rewrite filter_In. cbn. rewrite negb_true_iff, Nat.eqb_neq. tauto.
Qed.

Lemma drop_assoc {A} r (l : list (nat * A)) x :
  assoc x (drop r l) = if x =? r then None else assoc x l.
Proof.
  unfold drop. induction l as [|[y e] l IH]; cbn [filter assoc fst]; [now destruct (x =? r)|].
  destruct (Nat.eqb_spec y r) as [->|N]; cbn [negb assoc]; rewrite IH.
  - destruct (Nat.eqb_spec x r); auto.
  - destruct (Nat.eqb_spec x y) as [->|Nxy]; [|auto].
    destruct (Nat.eqb_spec y r); [contradiction|auto].
Qed.

Lemma put_ok K r b m :
  config_ok K -> StronglySorted lt (map fst m) -> config_ok ((r, (b, m)) :: drop r K).
Proof.
  intros [ND S] Sm. split.
  - cbn. constructor.
    + rewrite in_map_iff. intros ([x e] & E & Hi). cbn in E. subst x. apply drop_In in Hi. tauto.
    + unfold drop. clear S. induction K as [|[x e] K IH]; cbn; [constructor|].
      cbn in ND. inversion ND; subst. destruct (x =? r); cbn; auto. constructor; auto.
      rewrite in_map_iff. intros ([y e'] & E & Hi). cbn in E. subst y. apply H2.
      apply filter_In in Hi as [Hi _]. apply (in_map fst) in Hi. exact Hi.
  - intros n b' m' [[= <- <- <-]|Hi]; auto. apply drop_In in Hi as [Hi _]. eauto.
Qed.

(** The operations give ordered name mappings. *)
Definition op_ok (o : @op T) : Prop :=
  match o with
  | SetInfo _ (_, m) => StronglySorted lt (map fst m)
  | Query _ _ => True
  end.

Lemma lookup_repos s d r s' (a : option T) :
  lookup_key digest s d r = (s', a) -> rc_repos s' = rc_repos s /\ rc_dups s' = Some d.
Proof.
  unfold lookup_key. destruct (assoc _ (rc_repos s)); [|intros [= <- _]; auto].
  destruct (assoc _ (rc_keys s)); intros [= <- _]; auto.
Qed.

Lemma run_ok h s : run H digest h s -> Forall op_ok h -> config_ok (rc_repos s) /\
  (forall d, rc_dups s = Some d -> minimized (automaton_of H (rc_repos s)) (Some d)).
Proof.
  induction 1 as [|h s o s' R IH St]; intros F.
  - cbn. split; [split; [constructor|intros ? ? ? []]|discriminate].
  - apply Forall_app in F as [F Fo]. inversion Fo; subst. destruct (IH F) as [OK D].
    inversion St; subst.
    + destruct e as [b m]. cbn. split; [now apply put_ok|discriminate].
    + destruct (lookup_repos _ _ _ _ _ H1) as [E1 E2]. rewrite E1. split; auto.
      intros d' E. rewrite E2 in E. injection E as <-.
      unfold dups_of in H0. destruct (rc_dups s) eqn:Ed; [subst; auto|auto].
Qed.

(** ** Histories that only fill in what was not content-fixed *)

(** [SetInfo] introduces a new repository, or replaces one that is not
    content-fixed. *)
Definition fills (K : config) (o : @op T) : Prop :=
  match o with
  | SetInfo r _ => forall b m, assoc r K <> Some (Some b, m)
  | Query _ _ => True
  end.

Inductive filling : list (@op T) -> rconf -> Prop :=
| f_nil : filling [] rc_empty
| f_snoc h s o s' : filling h s -> fills (rc_repos s) o -> op_ok o ->
    step H digest s o s' -> filling (h ++ [o]) s'.

Lemma filling_run h s : filling h s -> run H digest h s /\ Forall op_ok h.
Proof.
  induction 1 as [|h s o s' F [R Fa] Fi Oo St]; [split; constructor|].
  split; [econstructor; eauto|]. apply Forall_app. split; auto.
Qed.

Lemma fill_bases K r e :
  (forall b m, assoc r K <> Some (Some b, m)) -> config_ok K ->
  bases_ok H ((r, e) :: drop r K) -> bases_ok H K.
Proof.
  intros F OK BO n m b n' m' b' Hn Hn' E.
  apply (BO n m b n' m' b'); auto; right; apply drop_In; split; auto; intros ->.
  - apply (F b m). now apply (config_In K).
  - apply (F b' m'). now apply (config_In K).
Qed.

Lemma fill_equivalent K r e x :
  (forall b m, assoc r K <> Some (Some b, m)) -> fixed K x ->
  equivalent K ((r, e) :: drop r K) x x.
Proof.
  intros F Fx. exists (fun a b => a = b /\ fixed K a). split; auto.
  intros a b [<- Fa]. destruct (fixed_step K a Fa) as (base & m & E & L).
  exists base, m, m. split; auto. split.
  - cbn. destruct (Nat.eqb_spec a r) as [->|N]; [exfalso; eapply F; eauto|].
    rewrite drop_assoc. apply Nat.eqb_neq in N. now rewrite N.
  - intros local. destruct (assoc local m) eqn:El; auto. split; auto. eauto.
Qed.

Definition keys_right (s : rconf) : Prop :=
  forall x k, assoc x (rc_keys s) = Some (Some k) -> right (rc_repos s) x (Some k).

Lemma filling_keys h s : filling h s -> bases_ok H (rc_repos s) -> keys_right s.
Proof.
  induction 1 as [|h s o s' F IH Fi Oo St]; intros BO.
  - intros x k E. discriminate.
  - destruct (filling_run _ _ F) as [R Fo]. destruct (run_ok _ _ R Fo) as [OK D].
    inversion St; subst.
    + cbn in BO. pose proof (fill_bases _ _ _ Fi OK BO) as BO0. specialize (IH BO0).
      intros x k E d M. cbn in *. rewrite drop_assoc in E. destruct (Nat.eqb_spec x r); [discriminate|].
      specialize (IH x k E). pose proof (right_fixed _ _ _ OK BO0 IH) as Fx.
      destruct (minimized_exists (automaton_of H (rc_repos s))) as (o0 & M0).
      { now apply automaton_wf. }
      destruct (minimized_spec _ _ (automaton_wf H _ OK) M0) as (d0 & -> & _).
      destruct e as [b m].
      destruct (key_equivalent (rc_repos s) ((r, (b, m)) :: drop r (rc_repos s)) d0 d x x)
        as (k' & E1 & E2); auto.
      { now apply put_ok. } { now apply fill_equivalent. }
      rewrite (IH d0 M0) in E1. injection E1 as <-. exact E2.
    + destruct (lookup_repos _ _ _ _ _ H1) as [E1 E2].
      assert (BO0 : bases_ok H (rc_repos s)) by (now rewrite <- E1). specialize (IH BO0).
      assert (Md : minimized (automaton_of H (rc_repos s)) (Some d)).
      { unfold dups_of in H0. destruct (rc_dups s); [subst; auto|auto]. }
      intros x k E. rewrite E1. unfold lookup_key in H1.
      set (y := dedup d r) in *. destruct (assoc y (rc_repos s)) eqn:Ey.
      2:{ injection H1 as <- _. auto. }
      destruct (assoc y (rc_keys s)) eqn:Eky.
      { injection H1 as <- _. auto. }
      injection H1 as <- <-. cbn [rc_keys assoc] in E.
      destruct (Nat.eqb_spec x y) as [->|N]; auto. injection E as E.
      intros d' M'. rewrite (key_unique _ d' d); auto.
      unfold repository_key. unfold y in *. rewrite (u_idem H (rc_repos s)) by auto. now rewrite Ey.
Qed.

Lemma keys_right_query s d r s' k :
  config_ok (rc_repos s) -> bases_ok H (rc_repos s) ->
  minimized (automaton_of H (rc_repos s)) (Some d) ->
  keys_right s -> lookup_key digest s d r = (s', Some k) -> right (rc_repos s) r (Some k).
Proof.
  intros OK BO Md KR E d' M'. rewrite (key_unique _ d' d); auto.
  unfold lookup_key in E. unfold repository_key.
  destruct (assoc (dedup d r) (rc_repos s)) eqn:Ey; [|discriminate].
  destruct (assoc (dedup d r) (rc_keys s)) eqn:Ek; [|congruence].
  injection E as _ ->. apply KR in Ek. specialize (Ek d Md).
  unfold repository_key in Ek. rewrite (u_idem H (rc_repos s)) in Ek by auto. now rewrite Ey in Ek.
Qed.

(** ** Histories that ask only after everything is set *)

Definition keys_all_right (s : @rconf T) : Prop :=
  forall x a, assoc x (rc_keys s) = Some a -> right (rc_repos s) x a.

Lemma sets_keys h s : run H digest h s -> (forall r a, ~ In (Query r a) h) -> rc_keys s = [].
Proof.
  induction 1 as [|h s o s' R IH St]; intros N; auto.
  inversion St; subst.
  - cbn. rewrite IH; auto. intros r' a Hi. apply (N r' a), in_or_app. auto.
  - exfalso. apply (N r a), in_or_app. right. now left.
Qed.

Inductive queries (s0 : @rconf T) : list (@op T) -> rconf -> Prop :=
| q_nil : queries s0 [] s0
| q_snoc h s r a s' : queries s0 h s -> step H digest s (Query r a) s' ->
    queries s0 (h ++ [Query r a]) s'.

Lemma queries_right s0 h s :
  config_ok (rc_repos s0) -> bases_ok H (rc_repos s0) ->
  (forall d, rc_dups s0 = Some d -> minimized (automaton_of H (rc_repos s0)) (Some d)) ->
  keys_all_right s0 -> queries s0 h s ->
  rc_repos s = rc_repos s0 /\
  (forall d, rc_dups s = Some d -> minimized (automaton_of H (rc_repos s0)) (Some d)) /\
  keys_all_right s /\ forall r a, In (Query r a) h -> right (rc_repos s0) r a.
Proof.
  intros OK BO D K0 Q. induction Q as [|h s r a s' Q (E0 & D' & KR & An) St].
  - repeat split; auto. intros r a [].
  - inversion St as [|? d ? ? ? HD HL]; subst. destruct (lookup_repos _ _ _ _ _ HL) as [E1 E2].
    assert (Md : minimized (automaton_of H (rc_repos s0)) (Some d)).
    { unfold dups_of in HD. destruct (rc_dups s) as [d0|]; [subst; auto|]. now rewrite <- E0. }
    assert (G : keys_all_right s' /\ right (rc_repos s0) r a).
    { unfold lookup_key in HL. unfold keys_all_right in *. rewrite E1, E0 in *.
      set (y := dedup d r) in *.
      assert (RY : forall b, right (rc_repos s0) y b -> right (rc_repos s0) r b).
      { intros b Rb d' M'. rewrite (key_unique _ d' d) by auto. specialize (Rb d Md).
        unfold repository_key in *. unfold y in *. now rewrite (u_idem H (rc_repos s0)) in Rb by auto. }
      destruct (assoc y (rc_repos s0)) eqn:Ey.
      2:{ injection HL as <- <-. split; [exact KR|]. intros d' M'.
          rewrite (key_unique _ d' d) by auto. unfold repository_key. fold y. now rewrite Ey. }
      destruct (assoc y (rc_keys s)) eqn:Ek.
      { injection HL as <- <-. split; [exact KR|]. apply RY. now apply KR. }
      injection HL as <- <-. set (a := match build_graph _ _ _ _ with Done _ g => Some (digest g) | _ => None end).
      assert (Ra : right (rc_repos s0) y a).
      { intros d' M'. rewrite (key_unique _ d' d) by auto. unfold repository_key.
        unfold y. rewrite (u_idem H (rc_repos s0)) by auto. fold y. rewrite Ey. reflexivity. }
      split; [|now apply RY].
      intros x b E. cbn [rc_keys assoc] in E. destruct (Nat.eqb_spec x y) as [->|N]; auto.
      injection E as <-. exact Ra. }
    destruct G as [G1 G2]. split; [congruence|]. split; [|split]; auto.
    + intros d' E. rewrite E2 in E. injection E as <-. auto.
    + intros r' a' Hi. apply in_app_iff in Hi as [Hi|[[= <- <-]|[]]]; auto.
Qed.

End K.
