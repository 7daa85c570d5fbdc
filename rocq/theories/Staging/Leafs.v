(** Reading trees and putting everything below them somewhere. *)
From Coq Require Import String Ascii List Bool NArith Arith Lia Sorted.
From Verif Require Import Common.Strs Hex.Model Describe.Model Executor.Wire Rehash.Directory Rehash.DirectoryProofs.
From Verif Require Import GitTree.Model Path.Model Rehash.Model Rehash.Spec Staging.FileSystem Staging.Spec Staging.Base Staging.Model Staging.Install.
Import ListNotations.
Local Open Scope string_scope.
Local Open Scope list_scope.

(** ** What is wanted for a node *)
Definition wanted (trees : bool) (p : path) (f : fnode) : wish := if trees then leafs_of p f else files_of p f.

Lemma wanted_prefix trees p f q o : wanted trees p f q o -> prefix p q.
Proof. destruct trees; [intros [(r & -> & _)|(r & -> & _)]|intros (r & -> & _)]; now exists r. Qed.
Lemma app_cons_assoc {A} (p : list A) x r : p ++ x :: r = (p ++ [x]) ++ r.
Proof. now rewrite <- app_assoc. Qed.
Lemma empty_es (es : list (string * fnode)) : (forall x, look (FDir es) ([] ++ [x]) = None) <-> es = [].
Proof.
  split; [|intros -> x; reflexivity]. intros H. destruct es as [|[x c] es]; auto. specialize (H x). cbn [app] in H. rewrite look_dir in H.
  cbn [alookup] in H. rewrite String.eqb_refl, look_nil in H. discriminate.
Qed.
Lemma wanted_dir trees p es q o : wanted trees p (FDir es) q o <->
  (trees = true /\ es = [] /\ q = p /\ o = ADirectory) \/ exists x c, alookup x es = Some c /\ wanted trees (p ++ [x]) c q o.
Proof.
  assert (F : files_of p (FDir es) q o <-> exists x c, alookup x es = Some c /\ files_of (p ++ [x]) c q o).
  { split.
    - intros ([|x r] & -> & L & N); [rewrite look_nil in L; injection L as <-; now elim N|]. rewrite look_dir in L.
      destruct (alookup x es) as [c|] eqn:A; [|discriminate]. exists x, c. split; auto. exists r. rewrite <- app_cons_assoc. auto.
    - intros (x & c & A & r & -> & L & N). exists (x :: r). rewrite look_dir, A, <- app_cons_assoc. auto. }
  destruct trees; cbn [wanted].
  2:{ rewrite F. split; [now right|]. intros [[]|]; [discriminate|auto]. }
  unfold leafs_of at 1. rewrite F. split.
  - intros [(x & c & A & W)|(r & -> & [L E] & ->)].
    + right. exists x, c. split; auto. now left.
    + destruct r as [|x r].
      * left. apply empty_es in E. subst. rewrite app_nil_r. auto.
      * right. rewrite look_dir in L. destruct (alookup x es) as [c|] eqn:A; [|discriminate]. exists x, c. split; auto. right. exists r.
        rewrite <- app_cons_assoc. repeat split; auto. intros y. specialize (E y). cbn [app] in E. now rewrite look_dir, A in E.
  - intros [(_ & -> & -> & ->)|(x & c & A & [W|(r & -> & [L E] & ->)])].
    + right. exists []. rewrite app_nil_r. repeat split; auto.
    + left. eauto.
    + right. exists (x :: r). rewrite <- app_cons_assoc. repeat split; auto; [now rewrite look_dir, A|]. intros y. cbn [app]. now rewrite look_dir, A.
Qed.
Lemma wanted_blob trees p f q o : object_of f <> ADirectory -> (wanted trees p f q o <-> q = p /\ o = object_of f).
Proof.
  intros N. assert (F : files_of p f q o <-> q = p /\ o = object_of f).
  { split.
    - intros ([|x r] & -> & L & M); [rewrite look_nil in L; injection L as <-; now rewrite app_nil_r|]. destruct f; try discriminate. now elim N.
    - intros [-> ->]. exists []. rewrite app_nil_r, look_nil. auto. }
  destruct trees; cbn [wanted]; auto. unfold leafs_of. rewrite F. split; [|auto]. intros [H|(r & -> & [L E] & ->)]; auto. exfalso.
  destruct r; [rewrite look_nil in L; congruence|]. destruct f; try discriminate. now elim N.
Qed.

(** ** Paths of which none is below another one *)
Definition cf (W : wish) : Prop := forall p o q o', W p o -> W q o' -> prefix p q -> p = q /\ o = o'.
Lemma files_cf p f : cf (files_of p f).
Proof.
  intros q o q' o' (r & -> & L & N) (r' & -> & L' & N') [s E]. rewrite <- app_assoc in E. apply app_inv_head in E. subst r'.
  destruct s as [|x s]; [rewrite app_nil_r in *; split; congruence|]. exfalso. rewrite look_file in L'; congruence.
Qed.
Definition incomparable (p q : path) : Prop := ~ prefix p q /\ ~ prefix q p.
Lemma below_incomparable p q p' q' : incomparable p q -> prefix p p' -> prefix q q' -> incomparable p' q'.
Proof.
  intros [A B] P Q. split; intros C.
  - destruct (prefix_comparable p q q') as [D|D]; auto. eapply prefix_trans; eauto.
  - destruct (prefix_comparable p q p') as [D|D]; auto. eapply prefix_trans; eauto.
Qed.
Lemma names_incomparable p x y : x <> y -> incomparable (p ++ [x]) (p ++ [y]).
Proof.
  intros N. split; intros [r E]; rewrite <- app_assoc in E; apply app_inv_head in E; injection E as E _; congruence.
Qed.

(** ** Damage *)
Lemma framed_unharmed W p o d d' : cf W -> W p o -> o <> ADirectory -> framed p d d' -> unharmed W d d'.
Proof.
  intros C H N [R F Sf]. constructor.
  - intros q (r & o2 & Nr & H2). destruct (prefix_dec q p) as [P|P].
    + apply F; auto. intros ->. destruct (C _ _ _ _ H H2) as [E _]; [now exists r|]. rewrite <- (app_nil_r p) in E at 1. apply app_inv_head in E. congruence.
    + left. rewrite R; auto. intros P'. apply P. destruct (C _ _ _ _ H H2) as [E _]; [eapply prefix_trans; [exact P'|now exists r]|]. rewrite E. now exists r.
  - intros q o' H' N' L. destruct (prefix_dec q p) as [P|P].
    + destruct (C _ _ _ _ H' H P) as [-> _]. auto.
    + rewrite <- R; auto. intros P'. apply P. destruct (C _ _ _ _ H H' P') as [-> _]. apply prefix_refl.
  - intros q M. apply R; intros P; apply M.
    + destruct P as [r ->]. left. now exists r, o.
    + destruct P as [r ->]. right. now exists p, r, o.
Qed.
Definition unharmed_result (W : wish) (d : fnode) (r : result) : Prop :=
  match r with Done d' | Fails d' => unharmed W d d' | Elsewhere => True end.
Lemma framed_unharmed_result W p o d r : cf W -> W p o -> o <> ADirectory -> framed_result p d r -> unharmed_result W d r.
Proof. intros C H N F. destruct r; cbn in *; auto; eapply framed_unharmed; eauto. Qed.
Lemma unharmed_andthen W d r f : unharmed_result W d r -> (forall d', unharmed_result W d' (f d')) -> unharmed_result W d (andthen r f).
Proof.
  intros R F. destruct r as [d'|d'|]; auto. cbn. specialize (F d'). cbn in R. destruct (f d') as [e|e|]; cbn in *; auto; eapply unharmed_trans; eauto.
Qed.
Lemma stage_all_unharmed W step l : Forall (fun e => forall d, unharmed_result W d (step (snd e) (fst e) d)) l ->
  forall d, unharmed_result W d (stage_all step l d).
Proof.
  induction 1 as [|[p i] l H F IH]; intros d; cbn [stage_all]; [apply unharmed_refl|]. apply unharmed_andthen; auto.
Qed.

(** ** Several nodes *)
Definition lists (L : list leaf) (W : wish) : Prop := (forall q o, In (q, o) L <-> W q o) /\ free L.
Definition good (step : oinfo -> path -> fnode -> result) (p : path) (i : oinfo) (f : fnode) : Prop :=
  forall d d', step i p d = Done d' -> exists L, lists L (files_of p f) /\ installed (of_list L) d d'.
Definition place : Type := (path * oinfo) * fnode.
Definition among (l : list place) : wish := fun q o => exists p i f, In (p, i, f) l /\ files_of p f q o.
Definition spread (l : list place) : Prop := ForallOrdPairs (fun a b => incomparable (fst (fst a)) (fst (fst b))) l.

Lemma stage_all_good step l : spread l -> Forall (fun e => good step (fst (fst e)) (snd (fst e)) (snd e)) l ->
  forall d d', stage_all step (map fst l) d = Done d' -> exists L, lists L (among l) /\ installed (of_list L) d d'.
Proof.
  intros S. induction S as [|[[p i] f] l H S IH]; intros G d d' E; cbn [map stage_all fst] in E.
  - injection E as <-. exists []. split; [split; [|constructor]|apply installed_nil]. intros q o. split; [intros []|intros (p & i & f & [] & _)].
  - inversion G as [|? ? G1 G2]; subst. apply andthen_done in E as (d1 & E1 & E2). cbn [fst snd] in G1, H.
    destruct (G1 _ _ E1) as (L1 & [M1 F1] & I1). destruct (IH G2 _ _ E2) as (L2 & [M2 F2] & I2).
    assert (Sep : separate L1 L2).
    { intros [q o] [q' o'] H1 H2. apply M1 in H1. apply M2 in H2 as (p' & i' & f' & In' & H2). cbn [fst].
      apply (below_incomparable p p'); [|eapply (wanted_prefix false); exact H1|eapply (wanted_prefix false); exact H2].
      rewrite Forall_forall in H. exact (H _ In'). }
    exists (L1 ++ L2). split; [split|].
    + intros q o. rewrite in_app_iff, M1, M2. split.
      * intros [W|(p' & i' & f' & In' & W)]; [exists p, i, f; split; auto; now left|exists p', i', f'; split; auto; now right].
      * intros (p' & i' & f' & [Eq|In'] & W); [injection Eq as <- <- <-; now left|right; now exists p', i', f'].
    + apply free_app. auto.
    + eapply installed_app; eauto.
Qed.

Section Storage.
Variable read : string -> option (list (string * oinfo)).
Variable blob : otype -> string -> option string.

Lemma says_dir es i l : says read blob (FDir es) i -> read (snd i) = Some l -> sorted_keys es ->
  fst i = Tree /\ NoDup (map fst l) /\ (forall x j, In (x, j) l -> exists c, alookup x es = Some c /\ says read blob c j) /\
  (forall x c, alookup x es = Some c -> exists j, In (x, j) l /\ says read blob c j).
Proof.
  intros [T S] R Srt. cbn [ftype] in T. destruct (S l R) as (ND & K & F). split; auto. split; auto.
  assert (F' : forall x c, In (x, c) es -> exists j, In (x, j) l /\ says read blob c j).
  { clear - F. induction es as [|[y c] es IH]; [intros x c []|]. cbn [fold_right] in F. destruct F as [F1 F2]. intros x c' [E|I]; [now injection E as <- <-|eauto]. }
  split.
  - intros x j I. destruct (alookup x es) as [c|] eqn:A.
    + exists c. split; auto. destruct (F' x c) as (j' & I' & Sj); [now apply alookup_In|].
      replace j with j'; auto. revert ND I I'. clear. induction l as [|[y k] l IH]; [intros _ []|]. cbn. intros ND. inversion ND as [|? ? N1 N2]; subst.
      intros [E|I] [E'|I']; try congruence; auto.
      * injection E as -> ->. elim N1. now apply (in_map fst) in I'.
      * injection E' as -> ->. elim N1. now apply (in_map fst) in I.
    + apply alookup_None in A. elim A. eapply K; eauto.
  - intros x c A. apply F'. now apply alookup_In.
Qed.
Lemma linkable_dir es : linkable (FDir es) -> forall x c, alookup x es = Some c -> linkable c.
Proof.
  intros H x c A. apply alookup_In in A. cbn [linkable] in H. induction es as [|[y c'] es IH]; [destruct A|]. cbn [fold_right] in H. destruct H as [H1 H2].
  destruct A as [E|A]; [now injection E as <- <-|auto].
Qed.
Lemma says_claims f i : linkable f -> says read blob f i -> claims blob i (object_of f).
Proof. destruct f as [[] data|t|es]; intros K [T S]; cbn in *; auto. Qed.

Lemma says_type f i : says read blob f i -> fst i = ftype f.
Proof. now destruct f; intros [T _]. Qed.

Definition leaf_rel (a : path * oinfo) (b : leaf) : Prop := fst a = fst b /\ claims blob (snd a) (snd b).

Lemma leafs_lists trees fuel : forall p h f l, ordered f -> linkable f -> is_dir f = true -> says read blob f (Tree, h) ->
  leafs read trees fuel p h = Some l ->
  exists L, Forall2 leaf_rel l L /\ lists L (wanted trees p f).
Proof.
  induction fuel as [|fuel IH]; intros p h f l O K D S E; [discriminate|]. destruct f as [| |es]; try discriminate. clear D. cbn [leafs] in E.
  destruct (read h) as [l0|] eqn:R; [|discriminate]. destruct (leaf_entries _ p l0) as [l1|] eqn:LE; [|discriminate]. injection E as <-.
  pose proof (proj1 (ordered_dir _) O) as [Srt O']. destruct (says_dir es (Tree, h) l0 S R Srt) as (_ & ND & A & B). clear S.
  assert (X : exists L, Forall2 leaf_rel l1 L /\
    lists L (fun q o => exists x j c, In (x, j) l0 /\ alookup x es = Some c /\ wanted trees (p ++ [x]) c q o)).
  { clear B R. revert l1 LE. induction l0 as [|[x [t hx]] l0 IHl]; intros l1 LE; cbn in LE.
    - injection LE as <-. exists []. split; [constructor|]. split; [|constructor]. intros q o. split; [intros []|intros (x & j & c & [] & _)].
    - destruct (A x (t, hx)) as (c & Ac & Sc); [now left|].
      match type of LE with match ?m with _ => _ end = _ => destruct m as [la|] eqn:Ea; [|discriminate] end.
      match type of LE with match ?m with _ => _ end = _ => destruct m as [lb|] eqn:Eb; [|discriminate] end. injection LE as <-.
      inversion ND as [|? ? N1 N2]; subst. destruct (IHl N2 (fun x j I => A x j (or_intror I)) lb eq_refl) as (Lb & Fb & Mb & Frb).
      assert (Y : exists La, Forall2 leaf_rel la La /\ lists La (wanted trees (p ++ [x]) c)).
      { destruct (IsTreeObject t) eqn:T.
        - assert (t = Tree) by (destruct t; try discriminate; auto). subst t. apply (IH (p ++ [x]) hx c); auto.
          + eapply ordered_lookup; eauto.
          + eapply linkable_dir; eauto.
          + apply says_type in Sc as Tc. cbn in Tc. destruct c as [[]| |]; try discriminate; auto.
        - injection Ea as <-. exists [(p ++ [x], object_of c)]. split.
          + constructor; [|constructor]. split; auto. cbn [fst snd]. apply says_claims; auto. eapply linkable_dir; eauto.
          + split; [|constructor; constructor]. intros q o. rewrite wanted_blob.
            * split; [intros [E|[]]; injection E as <- <-; auto|]. intros [-> ->]. now left.
            * apply says_type in Sc as Tc. cbn in Tc. subst t. destruct c; try discriminate. }
      destruct Y as (La & Fa & Ma & Fra). exists (La ++ Lb). split; [now apply Forall2_app|]. split.
      + intros q o. rewrite in_app_iff, Ma, Mb. split.
        * intros [W|(y & j & c' & I & Ac' & W)]; [exists x, (t, hx), c; split; [now left|auto]|exists y, j, c'; split; [now right|auto]].
        * intros (y & j & c' & [E|I] & Ac' & W); [|right; eauto 6]. injection E as -> <-. left. congruence.
      + apply free_app. split; auto. split; auto. intros [q o] [q' o'] H1 H2. apply Ma in H1. apply Mb in H2 as (y & j & c' & I & Ac' & W). cbn [fst].
        apply (below_incomparable (p ++ [x]) (p ++ [y])); [|eapply wanted_prefix; eauto|eapply wanted_prefix; eauto].
        apply names_incomparable. intros ->. apply N1. now apply (in_map fst) in I. }
  destruct X as (L & F & M & Fr).
  destruct (trees && match l0 with [] => true | _ => false end)%bool eqn:T.
  - apply andb_true_iff in T as [-> T]. destruct l0; [|discriminate]. assert (es = []).
    { destruct es as [|[x c] es]; auto. destruct (B x c) as (j & [] & _). cbn. now rewrite String.eqb_refl. }
    subst es. exists [(p, ADirectory)]. cbn in LE. injection LE as <-. split.
    + constructor; [|constructor]. split; reflexivity.
    + split; [|constructor; constructor]. intros q o. rewrite wanted_dir. split.
      * intros [E|[]]. injection E as <- <-. left. auto.
      * intros [(_ & _ & -> & ->)|(x & c & A' & _)]; [now left|discriminate].
  - exists L. split; [exact F|]. split; auto. intros q o. rewrite M, wanted_dir. split.
    + intros (x & j & c & I & Ac & W). right. eauto.
    + intros [(-> & -> & -> & ->)|(x & c & Ac & W)].
      * destruct l0 as [|[x j] l0]; [discriminate|]. destruct (A x j) as (c & Ac & _); [now left|discriminate].
      * destruct (B x c Ac) as (j & I & _). eauto 6.
Qed.
End Storage.
