(** The operations on directories, in terms of what is found at paths. *)
From Coq Require Import String Ascii List Bool NArith Arith Lia Sorted.
From Verif Require Import Common.Strs Hex.Model Describe.Model Executor.Wire Rehash.Directory Rehash.DirectoryProofs.
From Verif Require Import GitTree.Model Path.Model Rehash.Model Rehash.Spec Staging.FileSystem Staging.Spec.
Import ListNotations.
Local Open Scope string_scope.
Local Open Scope list_scope.

(** ** Paths *)
Fixpoint prefixb (p q : path) : bool :=
  match p, q with
  | [], _ => true
  | x :: p', y :: q' => (String.eqb x y && prefixb p' q')%bool
  | _ :: _, [] => false
  end.
Lemma prefixb_iff p : forall q, prefixb p q = true <-> prefix p q.
Proof.
  induction p as [|x p IH]; intros q; cbn.
  - split; auto. intros _. now exists q.
  - destruct q as [|y q].
    + split; [discriminate|]. intros [r E]. discriminate.
    + rewrite andb_true_iff, String.eqb_eq, IH. split.
      * intros [-> [r ->]]. now exists r.
      * intros [r E]. injection E as -> ->. split; auto. now exists r.
Qed.
Lemma prefix_dec p q : {prefix p q} + {~ prefix p q}.
Proof. destruct (prefixb p q) eqn:E; [left|right]; rewrite <- prefixb_iff; congruence. Qed.
Lemma prefix_nil q : prefix [] q.
Proof. now exists q. Qed.
Lemma prefix_refl q : prefix q q.
Proof. exists []. now rewrite app_nil_r. Qed.
Lemma prefix_trans p q r : prefix p q -> prefix q r -> prefix p r.
Proof. intros [a ->] [b ->]. exists (a ++ b). now rewrite app_assoc. Qed.
Lemma prefix_cons x p q : prefix (x :: p) (x :: q) <-> prefix p q.
Proof. split; intros [r E]; exists r; [injection E as ->; auto|now rewrite E]. Qed.
Lemma prefix_comparable p q r : prefix p r -> prefix q r -> prefix p q \/ prefix q p.
Proof.
  revert q r. induction p as [|x p IH]; intros q r [a E] [b F]; [left; apply prefix_nil|].
  destruct q as [|y q]; [right; apply prefix_nil|]. rewrite E in F. injection F as -> F.
  destruct (IH q (p ++ a)) as [C|C]; [now exists a|now exists b| |]; [left|right]; now apply prefix_cons.
Qed.
Lemma prefix_antisym p q : prefix p q -> prefix q p -> p = q.
Proof.
  intros [a ->] [b E]. rewrite <- app_assoc in E. rewrite <- (app_nil_r p) in E at 1. apply app_inv_head in E.
  symmetry in E. apply app_eq_nil in E as [-> _]. now rewrite app_nil_r.
Qed.

(** ** Looking *)
Lemma look_nil n : look n [] = Some (object_of n).
Proof. now destruct n. Qed.
Lemma look_file n p r : look n p <> Some ADirectory -> r <> [] -> look n (p ++ r) = None.
Proof.
  revert n. induction p as [|x p IH]; intros n H R.
  - rewrite look_nil in H. destruct r; [congruence|]. destruct n; cbn; auto. now elim H.
  - cbn in *. destruct n as [| |es]; auto. destruct (alookup x es); auto.
Qed.
Lemma look_up n p r o : look n (p ++ r) = Some o -> r <> [] -> look n p = Some ADirectory.
Proof.
  intros H R. destruct (look n p) as [[]|] eqn:E; auto; rewrite look_file in H; auto; congruence.
Qed.
Lemma look_dir es x q : look (FDir es) (x :: q) = match alookup x es with Some c => look c q | None => None end.
Proof. reflexivity. Qed.

Lemma alookup_del {V} (l : list (string * V)) x y : alookup y (adel x l) = if String.eqb x y then None else alookup y l.
Proof.
  unfold adel in *. induction l as [|[z c] l IH]; cbn; [now destruct (String.eqb x y)|].
  destruct (String.eqb_spec x z) as [->|N]; cbn.
  - rewrite IH. destruct (String.eqb_spec z y) as [->|M]; auto. destruct (String.eqb_spec y z); auto. congruence.
  - rewrite IH. destruct (String.eqb_spec y z) as [->|M]; auto. destruct (String.eqb_spec x z); auto. congruence.
Qed.
Lemma alookup_insert {V} k (v : V) l x : alookup x (ainsert k v l) = if String.eqb k x then Some v else alookup x l.
Proof.
  rewrite ainsert_lookup. rewrite String.eqb_sym. reflexivity.
Qed.

(** ** The effect of the operations *)
Lemma mkdirs_look p : forall d d', mkdirs p d = Done d' ->
  forall q, look d' q = if prefixb q p then Some ADirectory else look d q.
Proof.
  induction p as [|x p IH]; intros d d' E q.
  - cbn in E. destruct d; try discriminate. injection E as <-. destruct q; reflexivity.
  - cbn in E. destruct d as [| |es]; try discriminate. destruct (plainb x); [|discriminate].
    destruct (mkdirs p _) as [c| |] eqn:M; try discriminate. injection E as <-.
    destruct q as [|y q]; [reflexivity|]. rewrite look_dir, alookup_insert. cbn [prefixb].
    rewrite String.eqb_sym. destruct (String.eqb_spec y x) as [->|N].
    + cbn [andb]. rewrite (IH _ _ M q). destruct (prefixb q p) eqn:P; auto. rewrite look_dir.
      destruct (alookup x es); auto. destruct q; [discriminate P|reflexivity].
    + reflexivity.
Qed.
Lemma mkdirs_fails p : forall d d', mkdirs p d = Fails d' -> d' = d.
Proof.
  destruct p as [|x p]; intros d d' E; cbn in E.
  - destruct d; try discriminate; now injection E.
  - destruct d as [| |es]; try discriminate; [now injection E|]. destruct (plainb x); [|discriminate].
    destruct (mkdirs p _) as [c| |]; try discriminate; now injection E.
Qed.

(** What was at the path, and what the system call makes of it. *)
Fixpoint node_at (n : fnode) (p : path) : option fnode :=
  match p, n with
  | [], _ => Some n
  | x :: q, FDir es => match alookup x es with Some c => node_at c q | None => None end
  | _ :: _, _ => None
  end.
Lemma look_at n p : look n p = option_map object_of (node_at n p).
Proof.
  revert n. induction p as [|x p IH]; intros n; [now destruct n|]. cbn. destruct n as [| |es]; auto. now destruct (alookup x es).
Qed.
Lemma look_app n p r : look n (p ++ r) = match node_at n p with Some m => look m r | None => None end.
Proof.
  revert n. induction p as [|x p IH]; intros n; [now destruct n|]. cbn. destruct n as [| |es]; auto. now destruct (alookup x es).
Qed.
Definition after (e : effect) (o : option fnode) : option fnode :=
  match e with Put n => Some n | Gone => None | _ => o end.

Lemma act_look f p : forall d d', act f p d = Done d' ->
  f (node_at d p) <> Refused /\ node_at d' p = after (f (node_at d p)) (node_at d p) /\
  forall q, ~ prefix p q -> look d' q = look d q.
Proof.
  induction p as [|x p IH]; intros d d' E; [discriminate|]. cbn [act] in E.
  destruct d as [| |es]; try discriminate. destruct (plainb x); [|discriminate]. destruct p as [|y p].
  - cbn [node_at]. assert (A : match alookup x es with Some c => Some c | None => None end = alookup x es) by now destruct (alookup x es).
    rewrite A. destruct (f (alookup x es)) as [n| | |] eqn:F; try discriminate; injection E as <-;
      (split; [discriminate|]; split; [cbn [node_at after]; rewrite ?alookup_insert, ?alookup_del, ?String.eqb_refl; auto; now rewrite A|]);
      intros q P; destruct q as [|z q]; auto; rewrite !look_dir, ?alookup_insert, ?alookup_del; auto;
      destruct (String.eqb_spec x z) as [->|N]; auto; elim P; now exists q.
  - destruct (alookup x es) as [c|] eqn:L; [|discriminate]. destruct (act f (y :: p) c) as [c'| |] eqn:A; try discriminate. injection E as <-.
    destruct (IH _ _ A) as (X & Y & Z). change (node_at (FDir es) (x :: y :: p)) with (match alookup x es with Some c => node_at c (y :: p) | None => None end).
    rewrite L. split; [exact X|]. split.
    + change (node_at (FDir (ainsert x c' es)) (x :: y :: p)) with
        (match alookup x (ainsert x c' es) with Some c => node_at c (y :: p) | None => None end).
      now rewrite alookup_insert, String.eqb_refl.
    + intros q P. destruct q as [|z q]; auto. rewrite !look_dir, alookup_insert. destruct (String.eqb_spec x z) as [->|N]; auto.
      rewrite L. apply Z. intros B. apply P. now apply prefix_cons.
Qed.
Lemma act_fails f p : forall d d', act f p d = Fails d' -> d' = d.
Proof.
  destruct p as [|x p]; intros d d' E; cbn [act] in E; [discriminate|].
  destruct d as [| |es]; try discriminate; [now injection E|]. destruct (plainb x); [|discriminate]. destruct p as [|y p].
  - destruct (f _); try discriminate; now injection E.
  - destruct (alookup x es); [|now injection E]. destruct (act f (y :: p) f0); try discriminate; now injection E.
Qed.

(** ** Order is kept *)
Lemma ordered_dir es : ordered (FDir es) <-> sorted_keys es /\ forall x c, In (x, c) es -> ordered c.
Proof.
  cbn [ordered]. assert (A : fold_right (fun p P => (match p with (_, c) => ordered c end) /\ P) True es <-> forall x c, In (x, c) es -> ordered c).
  { induction es as [|[y c] es IH]; cbn [fold_right In].
    - split; auto. intros _ x c [].
    - rewrite IH. split.
      + intros [H1 H2] x c' [E|E]; [now injection E as <- <-|eauto].
      + intros H. split; eauto. }
  now rewrite A.
Qed.
Lemma adel_sorted {V} x (l : list (string * V)) : sorted_keys l -> sorted_keys (adel x l).
Proof.
  unfold sorted_keys. induction 1 as [|p l S IH F]; cbn; [constructor|]. destruct (negb _); auto. constructor; auto.
  apply Forall_forall. intros q Hq. apply filter_In in Hq as [Hq _]. rewrite Forall_forall in F. auto.
Qed.
Lemma ordered_insert x c es : ordered (FDir es) -> ordered c -> ordered (FDir (ainsert x c es)).
Proof.
  rewrite !ordered_dir. intros [S O] C. split; [now apply ainsert_sorted|]. intros y c' I. apply In_ainsert in I as [E|I]; eauto. now injection E as -> ->.
Qed.
Lemma ordered_lookup x c es : ordered (FDir es) -> alookup x es = Some c -> ordered c.
Proof. rewrite ordered_dir. intros [_ O] L. apply alookup_In in L. eauto. Qed.
Lemma mkdirs_ordered p : forall d d', ordered d -> mkdirs p d = Done d' -> ordered d'.
Proof.
  induction p as [|x p IH]; intros d d' O E; cbn in E.
  - destruct d; try discriminate. now injection E as <-.
  - destruct d as [| |es]; try discriminate. destruct (plainb x); [|discriminate].
    destruct (mkdirs p _) as [c| |] eqn:M; try discriminate. injection E as <-. apply ordered_insert; auto.
    apply (IH _ _) in M; auto. destruct (alookup x es) eqn:L; [eapply ordered_lookup; eauto|]. now split; [constructor|].
Qed.
Lemma act_ordered f p : (forall o n, f o = Put n -> ordered n) -> forall d d', ordered d -> act f p d = Done d' -> ordered d'.
Proof.
  intros F. induction p as [|x p IH]; intros d d' O E; [discriminate|]. cbn [act] in E.
  destruct d as [| |es]; try discriminate. destruct (plainb x); [|discriminate]. destruct p as [|y p].
  - destruct (f (alookup x es)) as [n| | |] eqn:G; try discriminate; injection E as <-; auto.
    + apply ordered_insert; eauto.
    + apply ordered_dir in O as [S O]. apply ordered_dir. split; [now apply adel_sorted|]. intros z c I. apply filter_In in I as [I _]. eauto.
  - destruct (alookup x es) as [c|] eqn:L; [|discriminate]. destruct (act f (y :: p) c) as [c'| |] eqn:A; try discriminate. injection E as <-.
    apply ordered_insert; auto. apply (IH c); auto. eapply ordered_lookup; eauto.
Qed.

(** Directories with the same content are equal. *)
Fixpoint fnode_ind' (P : fnode -> Prop) (hf : forall x data, P (FFile x data)) (hl : forall t, P (FLink t))
  (hd : forall es, Forall (fun p => P (snd p)) es -> P (FDir es)) (n : fnode) : P n :=
  match n with
  | FFile x data => hf x data
  | FLink t => hl t
  | FDir es => hd es ((fix go l : Forall (fun p => P (snd p)) l :=
      match l with [] => Forall_nil _ | p :: r => Forall_cons p (fnode_ind' P hf hl hd (snd p)) (go r) end) es)
  end.
Lemma look_ext n : forall m, ordered n -> ordered m -> (forall q, look n q = look m q) -> n = m.
Proof.
  induction n as [x data|t|es IH] using fnode_ind'; intros m On Om E.
  - specialize (E []). rewrite !look_nil in E. destruct m; cbn in E; congruence.
  - specialize (E []). rewrite !look_nil in E. destruct m; cbn in E; congruence.
  - destruct m as [| |es']; try (specialize (E []); rewrite !look_nil in E; cbn in E; discriminate). f_equal.
    pose proof (proj1 (ordered_dir _) On) as [S O]. pose proof (proj1 (ordered_dir _) Om) as [S' O'].
    apply sorted_ext; auto. intros k. pose proof (fun q => E (k :: q)) as K. setoid_rewrite look_dir in K.
    destruct (alookup k es) as [c|] eqn:L, (alookup k es') as [c'|] eqn:L'; auto.
    + f_equal. rewrite Forall_forall in IH. apply alookup_In in L, L'. apply (IH (k, c) L); eauto.
    + specialize (K []). rewrite look_nil in K. discriminate.
    + specialize (K []). rewrite look_nil in K. discriminate.
Qed.
