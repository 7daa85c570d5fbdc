(** From the invariant to the claims. *)
From Coq Require Import String Ascii List Bool NArith Arith Lia Permutation.
From Verif Require Import Common.Strs Hex.Model Hex.Proofs Describe.Model Executor.Wire Rehash.Directory Rehash.DirectoryProofs.
From Verif Require Import GitTree.Model GitTree.Spec GitTree.Ids GitTree.Proofs TreeOps.Spec TreeOps.Proofs Rehash.Model Rehash.Spec Rehash.Nodes.
From Verif Require Import Fetch.World Fetch.Model Fetch.Spec Fetch.Proofs Fetch.Safety.
Import ListNotations.
Local Open Scope string_scope.
Local Open Scope list_scope.
Local Open Scope nat_scope.

Section P.
Variable H : string -> string.
Variable extract : string -> string -> option fnode.
Variable resolve : pragma -> fnode -> option fnode.
Variable serve_says : query -> string -> Prop.
Notation happens := (happens H extract resolve serve_says).

Lemma archive_fact_describes o r t : unambiguous H o -> archive_fact H extract resolve o r t ->
  exists data m, archive_describes H extract resolve r data m /\ t = git_hash H m /\ has_node o m.
Proof.
  intros U (data & n & m & A & B & C & (n' & D & E & F) & L).
  assert (n' = n) as ->. { apply U; [apply C|apply D|congruence|apply C]. }
  assert (Nm : has_node o m) by (eapply node_at; [apply D|exact F]).
  unfold linked in L. destruct (r_pragma r) as [p|] eqn:P.
  - destruct L as (m1 & m' & G & I & J & K & ->). assert (m = m1) as ->. { apply U; auto; apply G. }
    exists data, m'. split; [|split; [reflexivity|apply K]]. split; [exact A|]. exists n, m1. rewrite P. auto.
  - subst t. exists data, m. split; [|auto]. split; [exact A|]. exists n, m. rewrite P. cbn. auto.
Qed.

Lemma archive_fact_node o r t : archive_fact H extract resolve o r t -> exists m, has_node o m /\ git_hash H m = t.
Proof.
  intros (data & n & m & A & B & C & (n' & D & E & F) & L). unfold linked in L. destruct (r_pragma r).
  - destruct L as (m1 & m' & _ & _ & _ & K & ->). exists m'. split; [apply K|reflexivity].
  - subst t. exists m. split; [eapply node_at; [apply D|exact F]|reflexivity].
Qed.
Lemma archive_fact_dir o r t : r_subdir r = [] \/ r_pragma r <> None -> archive_fact H extract resolve o r t -> has_tree H o t.
Proof.
  intros S (data & n & m & A & B & C & (n' & D & E & F) & L). unfold linked in L. destruct (r_pragma r).
  - destruct L as (m1 & m' & _ & _ & _ & K & ->). exists m'. split; [apply K|reflexivity].
  - destruct S as [S|S]; [|congruence]. rewrite S in F. cbn in F. injection F as <-. subst t. exists n'. auto.
Qed.
Lemma archive_same o1 o2 r1 r2 t1 t2 : unambiguous H o1 -> unambiguous H o2 ->
  a_content (r_archive r1) = a_content (r_archive r2) -> r_type r1 = r_type r2 -> r_subdir r1 = r_subdir r2 -> r_pragma r1 = r_pragma r2 ->
  archive_fact H extract resolve o1 r1 t1 -> archive_fact H extract resolve o2 r2 t2 ->
  t1 = t2 \/ exists d1 d2, d1 <> d2 /\ blob_hash H d1 = a_content (r_archive r1) /\ blob_hash H d2 = a_content (r_archive r1).
Proof.
  intros U1 U2 E1 E2 E3 E4 F1 F2. apply archive_fact_describes in F1 as (d1 & m1 & (A1 & n1 & k1 & B1 & C1 & D1) & T1 & _); auto.
  apply archive_fact_describes in F2 as (d2 & m2 & (A2 & n2 & k2 & B2 & C2 & D2) & T2 & _); auto.
  destruct (string_dec d1 d2) as [<-|N].
  - left. rewrite <- E2, B1 in B2. injection B2 as <-. rewrite <- E3, C1 in C2. injection C2 as <-. rewrite <- E4 in D2.
    unfold with_links in *. destruct (r_pragma r1); congruence.
  - right. exists d1, d2. repeat split; auto. congruence.
Qed.
Lemma no_collision_unambiguous o : (forall s, String.length (H s) = 20) -> (forall n, has_node o n -> named n) ->
  collision_free H (git_texts H (has_node o) []) -> unambiguous H o.
Proof.
  intros HL N C n n' A B E D.
  assert (Cl : closed (has_node o)).
  { intros es x c (d & I & J) K. exists d. split; auto. eapply parts_trans; [|exact J]. apply parts_dir. right. exists x, c. split; auto. apply parts_self. }
  pose proof (native_same H HL _ Cl N [] C n n' A B E) as K. destruct n as [| |es]; try discriminate. destruct n'; cbn in K; try discriminate. congruence.
Qed.

(** ** Trees *)
(** A directory without empty directories in it. *)
Definition no_empty_dirs (n : fnode) : Prop := forall m, In m (parts n) -> forall es x, m = FDir es -> ~ In (x, FDir []) es.
Lemma installed_same n : no_empty_dirs n -> installed_dir n = n.
Proof.
  induction n as [| |es IH] using fnode_ind'; intros N; auto. cbn [installed_dir]. f_equal.
  assert (Z : forall l, incl l es -> filter (fun p => negb (hollow_dir (snd p))) (map (fun p : string * fnode => match p with (x, c) => (x, installed_dir c) end) l) = l).
  { induction l as [|[x c] l IHl]; intros I; auto. cbn [map filter snd].
    assert (Ic : In (x, c) es) by (apply I; now left).
    assert (installed_dir c = c) as ->.
    { rewrite Forall_forall in IH. apply (IH (x, c) Ic). intros m J. apply N. apply parts_dir. right. eauto. }
    assert (hollow_dir c = false) as ->.
    { destruct c as [| |[|]]; auto. exfalso. eapply (N (FDir es)); [apply parts_self|reflexivity|exact Ic]. }
    cbn [negb]. f_equal. apply IHl. intros y J. apply I. now right. }
  apply Z, incl_refl.
Qed.

(** ** Directories of files *)
Lemma memory_entries_items l : forall acc r, memory_entries l acc = Some r ->
  (forall x h e, In (x, (h, e)) l -> FromHexString h <> None) /\
  (forall i, In i (items r) <-> In i (items acc) \/ exists x h e raw, In (x, (h, e)) l /\ FromHexString h = Some raw /\ i = (x, ((if e then Executable else File), raw))) /\
  Permutation (map fst (items r)) (map fst l ++ map fst (items acc)).
Proof.
  induction l as [|[x [h e]] l IH]; intros acc r; cbn [memory_entries].
  - intros E. injection E as <-. split; [intros ? ? ? []|]. split; [|reflexivity]. intros i. split; [auto|]. intros [I|(? & ? & ? & ? & [] & _)]. exact I.
  - destruct (FromHexString h) as [raw|] eqn:F; [|discriminate]. intros E. destruct (IH _ _ E) as (A & B & C). split; [|split].
    + intros y h' e' [I|I]; [injection I as <- <- <-; congruence|eauto].
    + intros i. rewrite B, emplace_back_items. cbn [fst snd]. split.
      * intros [[I| ->]|(y & h' & e' & raw' & I & J & K)]; [now left|right; exists x, h, e, raw; split; [now left|auto]|].
        right. exists y, h', e', raw'. split; [now right|auto].
      * intros [I|(y & h' & e' & raw' & [I|I] & J & K)]; [left; now left| |right; exists y, h', e', raw'; auto].
        injection I as <- <- <-. left. right. congruence.
    + rewrite C, (Permutation_map fst (emplace_back_perm raw (x, if e then Executable else File) acc)). cbn [fst snd map].
      symmetry. apply Permutation_middle.
Qed.
Lemma unhex_hash s : FromHexString (ToHexString s) = Some s.
Proof. apply hex_decode_encode. Qed.

Definition proper (k : list (string * (string * bool))) : Prop := NoDup (map fst k) /\ forall x h e, In (x, (h, e)) k -> valid_name x.
Lemma files_named k n : proper k -> has_files H k n -> named n.
Proof.
  intros [_ V] (fs & -> & S & A & B). apply named_dir. split; [exact S|]. intros x c I.
  assert (L : alookup x fs = Some c) by (apply sorted_alookup_In; auto). destruct (B _ _ L) as (h & e & J).
  split; [eapply V; eauto|]. destruct (A _ _ _ J) as (d & _ & K). rewrite L in K. injection K as ->. exact Logic.I.
Qed.
Lemma files_memory k n : (forall s, String.length (H s) = 20) -> proper k -> has_files H k n ->
  memory_tree H k = Some (git_hash H n).
Proof.
  intros HL P F. pose proof (files_named k n P F) as Nm. destruct P as [Nd V]. destruct F as (fs & -> & S & A & B).
  assert (Hx : forall l acc, (forall x h e, In (x, (h, e)) l -> exists data, blob_hash H data = h) -> exists r, memory_entries l acc = Some r).
  { induction l as [|[x [h e]] l IH]; intros acc D; cbn [memory_entries]; [eauto|]. destruct (D x h e) as [d <-]; [now left|].
    unfold blob_hash. rewrite unhex_hash. apply IH. intros y h' e' I. apply (D y h' e'). now right. }
  destruct (Hx k []) as [r E]. { intros x h e I. destruct (A _ _ _ I) as (d & D & _). eauto. }
  unfold memory_tree. rewrite E. f_equal. unfold CreateShallowTree. cbn [fst].
  destruct (memory_entries_items _ _ _ E) as (_ & It & Pm). cbn [items] in *. change (items []) with (@nil item) in *. rewrite app_nil_r in Pm.
  change (git_hash H (FDir fs)) with (ToHexString (tree_id H (content H (node_entries H fs)))). rewrite content_groups. do 2 f_equal.
  pose proof (git_wf H HL _ Nm) as Wf. change (wf (Dir (node_entries H fs))) in Wf. pose proof (ditems_valid H HL _ Wf) as Vd.
  assert (Same : forall i, In i (items r) <-> In i (ditems H (node_entries H fs))).
  { intros [x [t raw]]. rewrite It, in_ditems. split.
    - intros [[]|(y & h & e & raw' & I & J & K)]. injection K as -> -> ->. destruct (A _ _ _ I) as (d & D & L).
      exists (git_node H (FFile e d)). split; [apply in_node_entries; exists (FFile e d); split; auto; now apply alookup_In|].
      cbn [git_node ntype nid]. split; [reflexivity|]. rewrite <- D in J. unfold blob_hash in J. rewrite unhex_hash in J. congruence.
    - intros (c & I & -> & ->). right. apply in_node_entries in I as (c' & I & ->). assert (L : alookup x fs = Some c') by (apply sorted_alookup_In; auto).
      destruct (B _ _ L) as (h & e & J). destruct (A _ _ _ J) as (d & D & K). rewrite L in K. injection K as ->.
      exists x, h, e, (blob_id H d). split; [exact J|]. split; [rewrite <- D; apply unhex_hash|reflexivity]. }
  apply tree_content_order; rewrite ?items_groups; auto. split.
  - eapply Permutation_NoDup; [symmetry; exact Pm|exact Nd].
  - apply Forall_forall. intros i I. apply Same in I. destruct Vd as [_ Vd]. rewrite Forall_forall in Vd. auto.
Qed.

(** ** What programs never do *)
Section Never.
Variable bad : forall X, op X -> bool.
Fixpoint never (p : program) : Prop :=
  match p with Ret _ => True | Do o k => bad _ o = false /\ forall x, never (k x) end.
Lemma reach_never (T : Type) (code : T -> program) (P : T -> Prop) : (forall t, P t -> never (code t)) ->
  forall w rs, reach H extract resolve serve_says T outcome code w rs -> forall t p, In (t, p) rs -> P t -> never p.
Proof.
  intros C w rs R. induction R as [n N|w rs t R IH|w rs1 rs2 t X o k x w' R IH E|w rs1 rs2 r R IH|w w' R IH B]; intros t' p I Pt.
  - destruct I.
  - destruct I as [I|I]; [injection I as <- <-; auto|eauto].
  - apply in_app_or in I as [I|[I|I]]; [eapply IH; eauto; apply in_or_app; now left| |eapply IH; eauto; apply in_or_app; right; now right].
    injection I as <- <-. destruct (IH t (Do o k) (in_elt _ _ _) Pt) as [_ K]. apply K.
  - eapply IH; eauto. apply in_app_or in I as [I|I]; apply in_or_app; [now left|right; now right].
  - destruct I.
Qed.
End Never.
End P.
