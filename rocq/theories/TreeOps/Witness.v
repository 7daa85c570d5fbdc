(** Concrete directories with a computable hash function. *)
From Coq Require Import String Ascii List Bool NArith Arith Lia Sorted.
From Verif Require Import Common.Strs Hex.Model GitTree.Model GitTree.Spec TreeOps.Model TreeOps.Spec TreeOps.Proofs.
Import ListNotations.
Local Open Scope string_scope.
Local Open Scope list_scope.

(** Exclusive or of the input, cut in pieces of 20 bytes. *)
Definition xor_char (a b : ascii) : ascii :=
  match a, b with
  | Ascii a0 a1 a2 a3 a4 a5 a6 a7, Ascii b0 b1 b2 b3 b4 b5 b6 b7 =>
      Ascii (xorb a0 b0) (xorb a1 b1) (xorb a2 b2) (xorb a3 b3) (xorb a4 b4) (xorb a5 b5) (xorb a6 b6) (xorb a7 b7)
  end.
Fixpoint snoc (s : string) (c : ascii) : string := match s with "" => String c "" | String d r => String d (snoc r c) end.
Fixpoint roll (q s : string) : string :=
  match s, q with
  | String c r, String h t => roll (snoc t (xor_char h c)) r
  | _, _ => q
  end.
Definition toyH (s : string) : string := roll "01234567890123456789" s.

Lemma snoc_length s c : String.length (snoc s c) = S (String.length s).
Proof. induction s; cbn; auto. Qed.
Lemma roll_length s : forall q, String.length (roll q s) = String.length q.
Proof. induction s as [|c s IH]; intros [|h t]; cbn; auto. now rewrite IH, snoc_length. Qed.
Lemma toy_ids : raw_ids toyH.
Proof. intros s. unfold toyH. now rewrite roll_length. Qed.

Definition i1 := "aaaaaaaaaaaaaaaaaaaa".
Definition i2 := "bbbbbbbbbbbbbbbbbbbb".
Definition ex_a := Dir [("a", Blob File i1); ("d", Dir [("x", Blob Executable i2); ("y", Blob File i1)])].
Definition ex_b := Dir [("d", Dir [("y", Blob Symlink i2); ("z", Blob File i1)]); ("e", Blob File i2)].
Definition ex_r := Dir [("a", Blob File i1); ("d", Dir [("x", Blob Executable i2); ("y", Blob Symlink i2); ("z", Blob File i1)]); ("e", Blob File i2)].
Definition ex_store : store := subs toyH ex_a ++ subs toyH ex_b.

Lemma distinct_no_collision H st : NoDup (map (tree_id H) st) -> no_collision H st.
Proof.
  induction st as [|d st IH]; intros Nd x y Hx Hy E; [destruct Hx|]. cbn in Nd. inversion Nd as [|? ? Hn Nd']; subst.
  destruct Hx as [<-|Hx], Hy as [<-|Hy]; auto.
  - destruct Hn. rewrite E. now apply in_map.
  - destruct Hn. rewrite <- E. now apply in_map.
  - apply IH; auto.
Qed.
Fixpoint nodupb (l : list string) : bool :=
  match l with [] => true | x :: r => (negb (existsb (String.eqb x) r) && nodupb r)%bool end.
Lemma nodupb_ok l : nodupb l = true -> NoDup l.
Proof.
  induction l as [|x l IH]; cbn; intros E; constructor; apply andb_true_iff in E as [E1 E2]; auto.
  intros Hi. apply negb_true_iff in E1. assert (existsb (String.eqb x) l = true); [|congruence]. apply existsb_exists. exists x. split; auto. apply String.eqb_refl.
Qed.

Lemma short_name n : existsb (fun c => Ascii.eqb c "/" || Ascii.eqb c (ascii_of_N 0))%bool (list_ascii_of_string n) = false -> n <> "" ->
  (N.of_nat (String.length n) <= 65535)%N -> valid_name n.
Proof.
  intros E Hn Hl. unfold valid_name, free_of.
  assert (G : forall c, In c (list_ascii_of_string n) -> c <> "/"%char /\ c <> ascii_of_N 0).
  { intros c Hc. split; intros ->; assert (X : existsb (fun c => Ascii.eqb c "/" || Ascii.eqb c (ascii_of_N 0))%bool (list_ascii_of_string n) = true); try congruence;
    apply existsb_exists; eexists; (split; [exact Hc|]); reflexivity. }
  repeat split; auto; intros Hi; apply G in Hi; tauto.
Qed.
Ltac solve_wf := cbn [wf fold_right]; repeat match goal with
  | |- _ /\ _ => split
  | |- True => exact I
  | |- sorted_keys _ => repeat constructor
  | |- valid_name _ => apply short_name; [reflexivity|discriminate|cbn; lia]
  | |- _ <> _ => discriminate
  | |- _ = _ => reflexivity
  end.

Lemma ex_a_wf : wf ex_a. Proof. unfold ex_a. solve_wf. Qed.
Lemma ex_b_wf : wf ex_b. Proof. unfold ex_b. solve_wf. Qed.

Lemma subs_stored H n : forall st, incl (subs H n) st -> stored H st n.
Proof.
  induction n as [|es IH] using node_ind'; intros st Hi; [exact I|]. apply stored_dir. split; [apply Hi; now left|].
  intros x c Hc. rewrite Forall_forall in IH. apply (IH _ Hc). intros d Hd. apply Hi. right. apply in_concat. exists (subs H c). split; auto.
  apply in_map_iff. exists (x, c). auto.
Qed.

(** The computed parts as booleans. *)
Definition outcome_eqb (a b : outcome) : bool :=
  match a, b with Value i, Value j => (String.eqb (fst i) (fst j) && otype_eqb (snd i) (snd j))%bool | Fatal, Fatal | NoFuel, NoFuel => true | _, _ => false end.
Lemma outcome_eqb_eq a b : outcome_eqb a b = true -> a = b.
Proof.
  destruct a as [[h t]| |], b as [[h' t']| |]; cbn; try discriminate; auto. rewrite andb_true_iff. intros [E1 E2].
  apply String.eqb_eq in E1. subst. destruct t, t'; cbn in E2; congruence.
Qed.
Definition okb (H : string -> string) (x : store * outcome) (o : outcome) : bool :=
  (nodupb (map (tree_id H) (fst x)) && outcome_eqb (snd x) o)%bool.
Lemma okb_ok H x o : okb H x o = true -> no_collision H (fst x) /\ snd x = o.
Proof. unfold okb. rewrite andb_true_iff. intros [E1 E2]. split; [now apply distinct_no_collision, nodupb_ok|now apply outcome_eqb_eq]. Qed.

Lemma ex_overlay_check : okb toyH (overlay toyH false 5 ex_store (node_info toyH ex_a) (node_info toyH ex_b)) (Value (node_info toyH ex_r)) = true.
Proof. vm_compute. reflexivity. Qed.
Lemma ex_overlay_fatal : outcome_eqb (snd (overlay toyH true 5 ex_store (node_info toyH ex_a) (node_info toyH ex_b))) Fatal = true.
Proof. vm_compute. reflexivity. Qed.

Definition uniformb (H : string -> string) (es : list (string * node)) : bool :=
  forallb (fun p => forallb (fun q => negb (String.eqb (nid H (snd p)) (nid H (snd q))) || otype_eqb (ntype (snd p)) (ntype (snd q)))%bool es) es.
Lemma uniformb_ok H es : uniformb H es = true -> (forall x c, In (x, c) es -> uniform H c) -> uniform H (Dir es).
Proof.
  intros E F. apply uniform_dir. split; auto. intros x c y d Hc Hd En. unfold uniformb in E. rewrite forallb_forall in E.
  specialize (E _ Hc). rewrite forallb_forall in E. specialize (E _ Hd). cbn [snd] in E. rewrite En, String.eqb_refl in E. cbn [negb orb] in E.
  destruct (ntype c), (ntype d); cbn in E; congruence.
Qed.
Lemma ex_a_uniform H : uniformb H [("x", Blob Executable i2); ("y", Blob File i1)] = true -> uniformb H [("a", Blob File i1); ("d", Dir [("x", Blob Executable i2); ("y", Blob File i1)])] = true -> uniform H ex_a.
Proof. intros E1 E2. apply uniformb_ok; auto. intros x c [E|[E|[]]]; injection E as <- <-; [exact I|]. apply uniformb_ok; auto. intros x c [E|[E|[]]]; injection E as <- <-; exact I. Qed.
Lemma ex_b_uniform H : uniformb H [("y", Blob Symlink i2); ("z", Blob File i1)] = true -> uniformb H [("d", Dir [("y", Blob Symlink i2); ("z", Blob File i1)]); ("e", Blob File i2)] = true -> uniform H ex_b.
Proof. intros E1 E2. apply uniformb_ok; auto. intros x c [E|[E|[]]]; injection E as <- <-; [|exact I]. apply uniformb_ok; auto. intros x c [E|[E|[]]]; injection E as <- <-; exact I. Qed.
Lemma ex_uniform_check : uniformb toyH [("x", Blob Executable i2); ("y", Blob File i1)] = true /\ uniformb toyH [("a", Blob File i1); ("d", Dir [("x", Blob Executable i2); ("y", Blob File i1)])] = true /\
  uniformb toyH [("y", Blob Symlink i2); ("z", Blob File i1)] = true /\ uniformb toyH [("d", Dir [("y", Blob Symlink i2); ("z", Blob File i1)]); ("e", Blob File i2)] = true.
Proof. repeat split; vm_compute; reflexivity. Qed.

Lemma ex_overlay :
  wf ex_a /\ wf ex_b /\ stored toyH ex_store ex_a /\ stored toyH ex_store ex_b /\ uniform toyH ex_a /\ uniform toyH ex_b /\ raw_ids toyH /\
  (let '(st', r) := overlay toyH false 5 ex_store (node_info toyH ex_a) (node_info toyH ex_b) in
   no_collision toyH st' /\ r = Value (node_info toyH ex_r)) /\
  snd (overlay toyH true 5 ex_store (node_info toyH ex_a) (node_info toyH ex_b)) = Fatal.
Proof.
  split; [exact ex_a_wf|]. split; [exact ex_b_wf|].
  split; [unfold ex_store; apply subs_stored, incl_appl, incl_refl|]. split; [unfold ex_store; apply subs_stored, incl_appr, incl_refl|].
  destruct ex_uniform_check as (U1 & U2 & U3 & U4). split; [now apply ex_a_uniform|]. split; [now apply ex_b_uniform|]. split; [exact toy_ids|].
  pose proof (okb_ok _ _ _ ex_overlay_check) as E. pose proof (outcome_eqb_eq _ _ ex_overlay_fatal) as F. revert E F.
  generalize (overlay toyH false 5 ex_store (node_info toyH ex_a) (node_info toyH ex_b)). generalize (overlay toyH true 5 ex_store (node_info toyH ex_a) (node_info toyH ex_b)).
  generalize (Value (node_info toyH ex_r)). intros o [s1 o1] [s2 o2]. cbn [fst snd]. auto.
Qed.

Definition struct_check (x : store * scache * list (option string)) : bool :=
  (nodupb (map (tree_id toyH) (fst (fst x))) &&
   match snd x with [Some a; Some b; Some c] => String.eqb a c && negb (String.eqb a b) | _ => false end)%bool.
Lemma ex_structure_check : struct_check (compute_all toyH 5 ex_store [] (map (fun T => ToHexString (nid toyH T)) [ex_a; ex_b; ex_a])) = true.
Proof. vm_compute. reflexivity. Qed.
Lemma ex_structure :
  let '(st', _, rs) := compute_all toyH 5 ex_store [] (map (fun T => ToHexString (nid toyH T)) [ex_a; ex_b; ex_a]) in
  no_collision toyH st' /\ (exists a b, rs = [Some a; Some b; Some a] /\ a <> b).
Proof.
  pose proof ex_structure_check as E. revert E. generalize (compute_all toyH 5 ex_store [] (map (fun T => ToHexString (nid toyH T)) [ex_a; ex_b; ex_a])).
  intros [[st c] rs]. unfold struct_check. cbn [fst snd]. rewrite andb_true_iff. intros [E1 E2].
  split; [now apply distinct_no_collision, nodupb_ok|]. destruct rs as [|[a|] [|[b|] [|[d|] [|]]]]; try discriminate.
  apply andb_true_iff in E2 as [E2 E3]. apply String.eqb_eq in E2. subst d. exists a, b. split; auto. apply negb_true_iff in E3. now apply String.eqb_neq.
Qed.

Definition ty_a := Dir [("a", Blob File i1); ("b", Blob Executable i1)].
Definition ty_b := Dir [("c", Blob File i2)].
Definition ty_r := Dir [("a", Blob File i1); ("b", Blob File i1); ("c", Blob File i2)].

Lemma ty_overlay_check :
  okb toyH (overlay toyH false 2 (subs toyH ty_a ++ subs toyH ty_b) (node_info toyH ty_a) (node_info toyH ty_b)) (Value (node_info toyH ty_r)) = true.
Proof. vm_compute. reflexivity. Qed.
Definition lists_eqb (a b : list string) : bool := if list_eq_dec string_dec a b then true else false.
Lemma ty_store_check : lists_eqb
  (fst (overlay toyH false 2 (subs toyH ty_a ++ subs toyH ty_b) (node_info toyH ty_a) (node_info toyH ty_b))) ((subs toyH ty_a ++ subs toyH ty_b) ++ subs toyH ty_r) = true.
Proof. vm_compute. reflexivity. Qed.

Lemma lift_checks H st a b o fuel st' : okb H (overlay H false fuel st a b) o = true -> lists_eqb (fst (overlay H false fuel st a b)) st' = true ->
  overlay H false fuel st a b = (st', o) /\ no_collision H st'.
Proof.
  intros E1 E2. apply okb_ok in E1 as [N E]. unfold lists_eqb in E2. destruct (list_eq_dec _ _ _) as [Es'|]; [|discriminate].
  rewrite Es' in N. split; auto. rewrite <- E, <- Es'. apply surjective_pairing.
Qed.

Lemma ty_result : overlay toyH false 2 (subs toyH ty_a ++ subs toyH ty_b) (node_info toyH ty_a) (node_info toyH ty_b) =
  ((subs toyH ty_a ++ subs toyH ty_b) ++ subs toyH ty_r, Value (node_info toyH ty_r)) /\
  no_collision toyH ((subs toyH ty_a ++ subs toyH ty_b) ++ subs toyH ty_r).
Proof. exact (lift_checks _ _ _ _ _ _ _ ty_overlay_check ty_store_check). Qed.

Lemma ty_not_overlay : ~ overlay_view (view ty_a) (view ty_b) (view ty_r).
Proof.
  intros V. destruct (V ["b"]) as (_ & _ & V3). cbn in V3. discriminate V3; auto.
  intros (q & r & t & id & E' & Hr & Hq). destruct q as [|x [|y q]]; cbn in E'; try discriminate.
  injection E' as <- <-. now destruct Hr.
Qed.
Lemma ty_wf : wf ty_a /\ wf ty_b /\ wf ty_r.
Proof. unfold ty_a, ty_b, ty_r. split; [|split]; solve_wf. Qed.

Lemma types_lost : exists (H : string -> string) (st : store) (A B : node) (fuel : nat),
  raw_ids H /\ ntype A = Tree /\ ntype B = Tree /\ wf A /\ wf B /\ stored H st A /\ stored H st B /\
  exists R st', overlay H false fuel st (node_info H A) (node_info H B) = (st', Value (node_info H R)) /\
  no_collision H st' /\ wf R /\ stored H st' R /\
  ~ overlay_view (view A) (view B) (view R).
Proof.
  exists toyH, (subs toyH ty_a ++ subs toyH ty_b), ty_a, ty_b, 2. split; [exact toy_ids|]. split; [reflexivity|]. split; [reflexivity|].
  destruct ty_wf as (W1 & W2 & W3). split; [exact W1|]. split; [exact W2|].
  split; [apply subs_stored, incl_appl, incl_refl|]. split; [apply subs_stored, incl_appr, incl_refl|].
  exists ty_r, ((subs toyH ty_a ++ subs toyH ty_b) ++ subs toyH ty_r). destruct ty_result as [E N].
  split; [exact E|]. split; [exact N|]. split; [exact W3|]. split; [apply subs_stored, incl_appr, incl_refl|]. exact ty_not_overlay.
Qed.
