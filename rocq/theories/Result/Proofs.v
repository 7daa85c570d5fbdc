From Coq Require Import String Ascii List Bool NArith ZArith SpecFloat Lia.
From Verif Require Import Common.Strs Hex.Model Expr.Json Expr.Model Describe.Model Describe.Spec Describe.Proofs.
From Verif Require Import Result.Model Result.Spec.
Import ListNotations.
Local Open Scope string_scope.
Local Open Scope list_scope.

(** Induction over nested values. *)
Section Ind.
Variable P : value -> Prop.
Hypothesis Hstep : forall v, Forall P (members v) -> P v.
Fixpoint value_ind' (v : value) : P v :=
  Hstep v
    (match v return Forall P (members v) with
     | VResult s p r _ =>
         Forall_cons s (value_ind' s) (Forall_cons p (value_ind' p) (Forall_cons r (value_ind' r) (Forall_nil P)))
     | VNodeValue w => Forall_cons w (value_ind' w) (Forall_nil P)
     | VNodeAbstract _ sf tf => Forall_cons sf (value_ind' sf) (Forall_cons tf (value_ind' tf) (Forall_nil P))
     | VList l =>
         (fix go (l : list value) : Forall P l :=
            match l with [] => Forall_nil P | x :: r => Forall_cons x (value_ind' x) (go r) end) l
     | VMap m =>
         (fix go (m : list (string * value)) : Forall P (map snd m) :=
            match m with [] => Forall_nil P | p :: r => Forall_cons (snd p) (value_ind' (snd p)) (go r) end) m
     | _ => Forall_nil P
     end).
End Ind.

Lemma part_trans u v w : part u v -> part v w -> part u w.
Proof. intros A B. revert A. induction B; intros A; auto. eapply part_in; eauto. Qed.

Lemma part_member u v : In u (members v) -> part u v.
Proof. intros. eapply part_in; eauto. constructor. Qed.

Lemma obind_some {A B} (x : option A) (f : A -> option B) b : obind x f = Some b -> exists a, x = Some a /\ f a = Some b.
Proof. destruct x as [a|]; cbn; [eauto|discriminate]. Qed.

Section P.
Variable ndump : num -> string.
Variable H : string -> string.
Variable u64_of_num : num -> N.
Variable t : hash_type.
Variable r : replacements.

Local Notation vid := (vid ndump H).
Local Notation ser := (ser ndump H r).

(** ** Writing *)

Definition layer (v : value) : option json :=
  match v with
  | VMap m => Some (JObj (map (fun p => match p with (k, x) => (k, JStr (vid x)) end) m))
  | VList l => Some (JArr (map (fun x => JStr (vid x)) l))
  | VNodeValue w => Some (JObj [("result", JStr (vid w)); ("type", JStr "VALUE_NODE")])
  | VNodeAbstract nt sf tf =>
      Some (JObj [("node_type", JStr nt); ("string_fields", JStr (vid sf));
                  ("target_fields", JStr (vid tf)); ("type", JStr "ABSTRACT_NODE")])
  | VResult s p f _ =>
      Some (JObj [("artifact_stage", JStr (vid s)); ("provides", JStr (vid p)); ("runfiles", JStr (vid f))])
  | VArt _ => ser_artifact ndump H r v
  | _ => Some (value_ToJson ndump H v)
  end.

Definition is_art (v : value) : bool := match v with VArt _ => true | _ => false end.
Definition is_node (v : value) : bool := match v with VNodeValue _ | VNodeAbstract _ _ _ => true | _ => false end.
Definition is_res (v : value) : bool := match v with VResult _ _ _ _ => true | _ => false end.

Section W.
Variable W : value -> Prop.
Hypothesis Wmembers : forall v w, W v -> In w (members v) -> W w.
Hypothesis Wdistinct : forall u w, W u -> W w -> vid u = vid w -> u = w.

Definition has (c : collected) (id : string) : Prop := alookup id (nodes c) <> None.

Definition entry_ok (c : collected) (u : value) (j : json) : Prop :=
  layer u = Some j /\ (forall w, In w (members u) -> has c (vid w)) /\
  (is_art u = true -> In (vid u) (provided_artifacts c)) /\
  (is_node u = true -> In (vid u) (provided_nodes c)) /\
  (is_res u = true -> In (vid u) (provided_results c)).

Record Inv (c : collected) : Prop := mkInv {
  inv_nodes : forall id j, alookup id (nodes c) = Some j -> exists u, W u /\ vid u = id /\ entry_ok c u j;
  inv_arts : forall id, In id (provided_artifacts c) -> exists u, W u /\ vid u = id /\ is_art u = true;
  inv_pnodes : forall id, In id (provided_nodes c) -> exists u, W u /\ vid u = id /\ is_node u = true;
  inv_press : forall id, In id (provided_results c) -> exists u, W u /\ vid u = id /\ is_res u = true
}.

Record ext (c c' : collected) : Prop := mkExt {
  ext_nodes : forall id j, alookup id (nodes c) = Some j -> alookup id (nodes c') = Some j;
  ext_arts : incl (provided_artifacts c) (provided_artifacts c');
  ext_pnodes : incl (provided_nodes c) (provided_nodes c');
  ext_press : incl (provided_results c) (provided_results c')
}.

Lemma ext_refl c : ext c c.
Proof. constructor; auto using incl_refl. Qed.
Lemma ext_trans a b c : ext a b -> ext b c -> ext a c.
Proof. intros [] []; constructor; eauto using incl_tran. Qed.
Lemma ext_has c c' id : ext c c' -> has c id -> has c' id.
Proof.
  unfold has. intros E Hh. destruct (alookup id (nodes c)) as [j|] eqn:L; [|congruence].
  rewrite (ext_nodes _ _ E _ _ L). discriminate.
Qed.
Lemma entry_ext c c' u j : ext c c' -> entry_ok c u j -> entry_ok c' u j.
Proof.
  intros E (L & M & A & N & R). split; [exact L|]. split; [intros w Hw; eapply ext_has; eauto|].
  split; [|split]; intros X; [apply (ext_arts _ _ E)|apply (ext_pnodes _ _ E)|apply (ext_press _ _ E)]; auto.
Qed.

Lemma note_artifact_ok c v : Inv c -> W v -> is_art v = true ->
  Inv (note_artifact (vid v) c) /\ ext c (note_artifact (vid v) c) /\ In (vid v) (provided_artifacts (note_artifact (vid v) c)).
Proof.
  intros I Wv K. assert (E : ext c (note_artifact (vid v) c)).
  { constructor; cbn; auto using incl_refl. apply incl_appl, incl_refl. }
  split; [|split; [exact E|cbn; apply in_or_app; cbn; auto]]. destruct I. constructor; cbn; auto.
  - intros id j L. destruct (inv_nodes0 id j L) as (u & ? & ? & ?). exists u. eauto using entry_ext.
  - intros id X. apply in_app_iff in X. destruct X as [X|[<-|[]]]; eauto.
Qed.
Lemma note_node_ok c v : Inv c -> W v -> is_node v = true ->
  Inv (note_node (vid v) c) /\ ext c (note_node (vid v) c) /\ In (vid v) (provided_nodes (note_node (vid v) c)).
Proof.
  intros I Wv K. assert (E : ext c (note_node (vid v) c)).
  { constructor; cbn; auto using incl_refl. apply incl_appl, incl_refl. }
  split; [|split; [exact E|cbn; apply in_or_app; cbn; auto]]. destruct I. constructor; cbn; auto.
  - intros id j L. destruct (inv_nodes0 id j L) as (u & ? & ? & ?). exists u. eauto using entry_ext.
  - intros id X. apply in_app_iff in X. destruct X as [X|[<-|[]]]; eauto.
Qed.
Lemma note_result_ok c v : Inv c -> W v -> is_res v = true ->
  Inv (note_result (vid v) c) /\ ext c (note_result (vid v) c) /\ In (vid v) (provided_results (note_result (vid v) c)).
Proof.
  intros I Wv K. assert (E : ext c (note_result (vid v) c)).
  { constructor; cbn; auto using incl_refl. apply incl_appl, incl_refl. }
  split; [|split; [exact E|cbn; apply in_or_app; cbn; auto]]. destruct I. constructor; cbn; auto.
  - intros id j L. destruct (inv_nodes0 id j L) as (u & ? & ? & ?). exists u. eauto using entry_ext.
  - intros id X. apply in_app_iff in X. destruct X as [X|[<-|[]]]; eauto.
Qed.

Lemma add_ok c v j : Inv c -> W v -> entry_ok c v j ->
  Inv (add_node (vid v) j c) /\ ext c (add_node (vid v) j c) /\ has (add_node (vid v) j c) (vid v).
Proof.
  intros I Wv K.
  assert (L : forall id, alookup id (nodes (add_node (vid v) j c)) = if String.eqb id (vid v) then Some j else alookup id (nodes c))
    by (intros id; cbn; apply ainsert_lookup).
  assert (E : ext c (add_node (vid v) j c)).
  { constructor; cbn [provided_artifacts provided_nodes provided_results add_node]; auto using incl_refl.
    intros id j' Lj. rewrite L. destruct (String.eqb_spec id (vid v)) as [->|]; auto.
    destruct (inv_nodes _ I _ _ Lj) as (u & Wu & Eu & Ku). assert (u = v) by auto. subst.
    destruct Ku as [K1 _], K as [K2 _]. congruence. }
  split; [|split; [exact E|]].
  - constructor; cbn [provided_artifacts provided_nodes provided_results add_node]; try apply I.
    intros id j' Lj. rewrite L in Lj. destruct (String.eqb_spec id (vid v)) as [->|].
    + injection Lj as <-. exists v. eauto using entry_ext.
    + destruct (inv_nodes _ I _ _ Lj) as (u & ? & ? & ?). exists u. eauto using entry_ext.
  - unfold has. rewrite L, String.eqb_refl. discriminate.
Qed.

(** What writing one value achieves. *)
Definition writes (v : value) : Prop := forall c, W v -> Inv c -> forall id c', ser v c = Some (id, c') ->
  id = vid v /\ Inv c' /\ ext c c' /\ has c' (vid v).

Lemma ser_list_ok l : Forall writes l -> forall c, (forall v, In v l -> W v) -> Inv c -> forall ids c',
  ser_list ser l c = Some (ids, c') ->
  ids = map vid l /\ Inv c' /\ ext c c' /\ forall v, In v l -> has c' (vid v).
Proof.
  induction 1 as [|v l Hv _ IH]; intros c Wl I ids c' E; cbn in E.
  - injection E as <- <-. split; auto. split; auto. split; [apply ext_refl|]. intros v [].
  - apply obind_some in E. destruct E as ([id c1] & E1 & E). apply obind_some in E. destruct E as ([ids2 c2] & E2 & E).
    cbn [fst snd] in *. injection E as <- <-.
    destruct (Hv c (Wl v (or_introl eq_refl)) I _ _ E1) as (-> & I1 & X1 & H1).
    destruct (IH c1 (fun x Hx => Wl x (or_intror Hx)) I1 _ _ E2) as (-> & I2 & X2 & H2).
    split; auto. split; auto. split; [eapply ext_trans; eauto|].
    intros x [<-|Hx]; auto. eapply ext_has; eauto.
Qed.

Lemma ser_map_ok m : Forall writes (map snd m) -> forall c, (forall v, In v (map snd m) -> W v) -> Inv c -> forall ids c',
  ser_map ser m c = Some (ids, c') ->
  ids = map (fun p => match p with (k, x) => (k, vid x) end) m /\ Inv c' /\ ext c c' /\
  forall v, In v (map snd m) -> has c' (vid v).
Proof.
  induction m as [|[k v] m IH]; intros F c Wl I ids c' E; cbn in E.
  - injection E as <- <-. split; auto. split; auto. split; [apply ext_refl|]. intros v [].
  - cbn in F. inversion F as [|? ? Hv F']; subst.
    apply obind_some in E. destruct E as ([id c1] & E1 & E). apply obind_some in E. destruct E as ([ids2 c2] & E2 & E).
    cbn [fst snd] in *. injection E as <- <-.
    destruct (Hv c (Wl v (or_introl eq_refl)) I _ _ E1) as (-> & I1 & X1 & H1).
    destruct (IH F' c1 (fun x Hx => Wl x (or_intror Hx)) I1 _ _ E2) as (-> & I2 & X2 & H2).
    split; auto. split; auto. split; [eapply ext_trans; eauto|].
    intros x [<-|Hx]; auto. eapply ext_has; eauto.
Qed.

Lemma in_cons2 {A} (P : A -> Prop) a b : P a -> P b -> forall x, In x [a; b] -> P x.
Proof. intros ? ? x [<-|[<-|[]]]; auto. Qed.

Lemma leaf_ok v c j : Inv c -> W v -> layer v = Some j -> members v = [] -> is_art v = false ->
  is_node v = false -> is_res v = false -> entry_ok c v j.
Proof.
  intros I Wv L M A N R. split; auto. rewrite M, A, N, R. repeat split; try discriminate. intros w [].
Qed.

Lemma ser_ok v : writes v.
Proof.
  induction v as [v IH] using value_ind'. intros c Wv I id c' E.
  destruct (alookup (vid v) (nodes c)) as [j0|] eqn:L0.
  { destruct v; cbn [Model.ser] in E; rewrite L0 in E; injection E as <- <-;
      (split; [reflexivity|]; split; [exact I|]; split; [apply ext_refl|unfold has; rewrite L0; discriminate]). }
  assert (FIN : forall j c1, Inv c1 -> ext c c1 -> entry_ok c1 v j -> Some (vid v, add_node (vid v) j c1) = Some (id, c') ->
    id = vid v /\ Inv c' /\ ext c c' /\ has c' (vid v)).
  { intros j c1 I1 X1 K E1. injection E1 as <- <-. destruct (add_ok c1 v j I1 Wv K) as (? & ? & ?).
    split; auto. split; auto. split; auto. eapply ext_trans; eauto. }
  assert (WM := fun w => Wmembers v w Wv).
  destruct v as [|b|n|s|j|a|st p f cb|w|nt sf tf|l|m]; cbn [Model.ser] in E; rewrite L0 in E;
    try (cbn [obind fst snd] in E; eapply FIN; [exact I|apply ext_refl| |exact E]; now apply leaf_ok).
  - (* artifact *)
    apply obind_some in E. destruct E as ([j c1] & E1 & E). apply obind_some in E1. destruct E1 as (j' & E1 & E2).
    injection E2 as <- <-. cbn [fst snd] in E.
    destruct (note_artifact_ok c (VArt a) I Wv eq_refl) as (I1 & X1 & N1).
    eapply FIN; [exact I1|exact X1| |exact E].
    split; [exact E1|]. split; [intros w []|]. split; auto. split; discriminate.
  - (* result *)
    apply obind_some in E. destruct E as ([j cz] & E1 & E). cbn [fst snd] in E.
    apply obind_some in E1. destruct E1 as ([x cx] & Ex & E1). apply obind_some in E1. destruct E1 as ([y cy] & Ey & E1).
    apply obind_some in E1. destruct E1 as ([z cz'] & Ez & E1). cbn [fst snd] in *. injection E1 as <- <-.
    cbn [members] in IH, WM. inversion IH as [|? ? Hs IH1]; subst. inversion IH1 as [|? ? Hp IH2]; subst.
    inversion IH2 as [|? ? Hf _]; subst.
    destruct (note_result_ok c _ I Wv eq_refl) as (I1 & X1 & N1).
    destruct (Hs _ (WM st (or_introl eq_refl)) I1 _ _ Ex) as (-> & I2 & X2 & H2).
    destruct (Hf _ (WM f (or_intror (or_intror (or_introl eq_refl)))) I2 _ _ Ey) as (-> & I3 & X3 & H3).
    destruct (Hp _ (WM p (or_intror (or_introl eq_refl))) I3 _ _ Ez) as (-> & I4 & X4 & H4).
    assert (X34 := ext_trans _ _ _ X3 X4). assert (X24 := ext_trans _ _ _ X2 X34).
    eapply FIN; [exact I4|exact (ext_trans _ _ _ X1 X24)| |exact E].
    split; [reflexivity|]. split.
    { cbn [members]. intros w [<-|[<-|[<-|[]]]]; auto; eauto using ext_has. }
    split; [discriminate|]. split; [discriminate|]. intros _. apply (ext_press _ _ X24). exact N1.
  - (* value node *)
    apply obind_some in E. destruct E as ([j c1] & E1 & E). cbn [fst snd] in E.
    apply obind_some in E1. destruct E1 as ([x cx] & Ex & E1). cbn [fst snd] in *. injection E1 as <- <-.
    cbn [members] in IH, WM. inversion IH as [|? ? Hw _]; subst.
    destruct (note_node_ok c _ I Wv eq_refl) as (I1 & X1 & N1).
    destruct (Hw _ (WM w (or_introl eq_refl)) I1 _ _ Ex) as (-> & I2 & X2 & H2).
    eapply FIN; [exact I2|exact (ext_trans _ _ _ X1 X2)| |exact E].
    split; [reflexivity|]. split.
    { cbn [members]. intros u [<-|[]]; auto. }
    split; [discriminate|]. split; [|discriminate]. intros _. apply (ext_pnodes _ _ X2). exact N1.
  - (* abstract node *)
    apply obind_some in E. destruct E as ([j c1] & E1 & E). cbn [fst snd] in E.
    apply obind_some in E1. destruct E1 as ([x cx] & Ex & E1). apply obind_some in E1. destruct E1 as ([y cy] & Ey & E1).
    cbn [fst snd] in *. injection E1 as <- <-.
    cbn [members] in IH, WM. inversion IH as [|? ? Hs IH1]; subst. inversion IH1 as [|? ? Ht _]; subst.
    destruct (note_node_ok c _ I Wv eq_refl) as (I1 & X1 & N1).
    destruct (Hs _ (WM sf (or_introl eq_refl)) I1 _ _ Ex) as (-> & I2 & X2 & H2).
    destruct (Ht _ (WM tf (or_intror (or_introl eq_refl))) I2 _ _ Ey) as (-> & I3 & X3 & H3).
    assert (X23 := ext_trans _ _ _ X2 X3).
    eapply FIN; [exact I3|exact (ext_trans _ _ _ X1 X23)| |exact E].
    split; [reflexivity|]. split.
    { cbn [members]. intros u [<-|[<-|[]]]; auto; eauto using ext_has. }
    split; [discriminate|]. split; [|discriminate]. intros _. apply (ext_pnodes _ _ X23). exact N1.
  - (* list *)
    apply obind_some in E. destruct E as ([j c1] & E1 & E). cbn [fst snd] in E.
    apply obind_some in E1. destruct E1 as ([ids cx] & Ex & E1). cbn [fst snd] in *. injection E1 as <- <-.
    destruct (ser_list_ok l IH c WM I _ _ Ex) as (-> & I1 & X1 & H1).
    eapply FIN; [exact I1|exact X1| |exact E].
    split; [cbn [layer]; now rewrite map_map|]. split; [exact H1|]. repeat split; discriminate.
  - (* map *)
    apply obind_some in E. destruct E as ([j c1] & E1 & E). cbn [fst snd] in E.
    apply obind_some in E1. destruct E1 as ([ids cx] & Ex & E1). cbn [fst snd] in *. injection E1 as <- <-.
    destruct (ser_map_ok m IH c WM I _ _ Ex) as (-> & I1 & X1 & H1).
    eapply FIN; [exact I1|exact X1| |exact E].
    split.
    { cbn [layer]. rewrite map_map. do 2 f_equal. apply map_ext. now intros [k x]. }
    split; [exact H1|]. repeat split; discriminate.
Qed.
End W.
End P.
