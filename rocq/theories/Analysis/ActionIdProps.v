(** C63: the identifiers of actions, trees and tree overlays determine what they stand for. *)
From Coq Require Import String Ascii List Bool Arith NArith Lia SpecFloat.
From Verif Require Import Common.Strs Hex.Model Hex.Props Path.Model Expr.Json Expr.JsonSpec Expr.Model Expr.HashSpec Expr.DumpProofs Expr.HashProofs.
From Verif Require Import Expr.Witness Describe.Model Analysis.Stage Analysis.StageAll.
Import ListNotations.
Local Open Scope string_scope.
Local Open Scope list_scope.
Local Open Scope nat_scope.
Local Infix "^^" := String.append (at level 60, right associativity).

(** All that is said about an action. *)
Record described := mkDescribed {
  d_outs : list string; d_dirs : list string; d_command : list string; d_cwd : string; d_env : list (string * string);
  d_may_fail : option string; d_no_cache : bool; d_timeout : num; d_props : list (string * string);
  d_inputs : list (string * json)
}.
Definition texts (m : list (string * string)) : items := map (fun p => (fst p, EStr (snd p))) m.
Definition arts (m : list (string * json)) : items := map (fun p => (fst p, EArt (snd p))) m.
Definition opt_list (o : option string) : list string := match o with Some m => [m] | None => [] end.

Section S.
Variable ndump : num -> string.
Variable H : string -> string.
Variable ftext : num -> string.

Definition create (d : described) : raction :=
  createAction ndump H ftext (d_outs d) (d_dirs d) (d_command d) (d_cwd d) (texts (d_env d)) (d_may_fail d) (d_no_cache d)
    (d_timeout d) (texts (d_props d)) (arts (d_inputs d)).

(** The strings that are hashed for the identifier of an action. *)
Definition vector_strings (v : list string) : list string := String.concat "" (map H v) :: v.
Definition hashed (d : described) : list string :=
  action_preimage ndump H ftext (d_outs d) (d_dirs d) (d_command d) (d_cwd d) (texts (d_env d)) (d_may_fail d) (d_no_cache d)
    (d_timeout d) (texts (d_props d)) (arts (d_inputs d))
  :: vector_strings (d_outs d) ++ vector_strings (d_dirs d) ++ vector_strings (d_command d) ++ vector_strings [d_cwd d]
     ++ vector_strings (opt_list (d_may_fail d))
     ++ preimages ndump H (EMap (texts (d_env d))) ++ preimages ndump H (EMap (texts (d_props d))) ++ preimages ndump H (EMap (arts (d_inputs d))).
Definition collides (l l' : list string) : Prop := exists x y, In x l /\ In y l' /\ x <> y /\ H x = H y.

Lemma collides_app_l a b l l' : collides a b -> incl a l -> incl b l' -> collides l l'.
Proof. intros (x & y & A & B & C) Ha Hb. exists x, y. auto. Qed.

Hypothesis NT : number_text ndump.
Hypothesis FL : fixed_length H.

Lemma H_len a b : String.length (H a) = String.length (H b).
Proof. destruct FL as (n & _ & E). now rewrite !E. Qed.
Lemma H_pos a : 0 < String.length (H a).
Proof. destruct FL as (n & Hn & E). now rewrite E. Qed.

Lemma hash_or x y : H x = H y -> x = y \/ collides [x] [y].
Proof. intros E. destruct (string_dec x y); [auto|]. right. exists x, y. cbn. auto. Qed.

Lemma concat_H v : forall w, String.concat "" (map H v) = String.concat "" (map H w) -> v = w \/ collides v w.
Proof.
  induction v as [|x v IH]; intros [|y w]; cbn [map]; auto; try rewrite sconcat_cons; try rewrite sconcat_cons; intros E.
  - apply (f_equal String.length) in E. rewrite app_str_length in E. pose proof (H_pos y). cbn in E. lia.
  - apply (f_equal String.length) in E. rewrite app_str_length in E. pose proof (H_pos x). cbn in E. lia.
  - rewrite ?sconcat_cons in E. apply str_split_len in E as [E1 E2]; [|apply H_len].
    destruct (hash_or x y E1) as [->|C]; [|right; eapply collides_app_l; [exact C| |]; intros z [<-|[]]; now left].
    destruct (IH w E2) as [->|C]; [auto|right; eapply collides_app_l; [exact C| |]; intros z Hz; now right].
Qed.
Lemma vector_or v w : hash_vector H v = hash_vector H w -> v = w \/ collides (vector_strings v) (vector_strings w).
Proof.
  unfold hash_vector. intros E. destruct (hash_or _ _ E) as [E'|C].
  - destruct (concat_H v w E') as [->|C]; [auto|]. right. eapply collides_app_l; [exact C| |]; intros z Hz; now right.
  - right. eapply collides_app_l; [exact C| |]; intros z [<-|[]]; now left.
Qed.
Lemma map_or m n : finite ndump H (EMap m) -> finite ndump H (EMap n) -> plain (EMap m) = true ->
  ToHash ndump H (EMap m) = ToHash ndump H (EMap n) -> m = n \/ collides (preimages ndump H (EMap m)) (preimages ndump H (EMap n)).
Proof.
  intros Fm Fn P E. destruct (hash_same ndump H NT FL (EMap m) Fm (EMap n) Fn E) as [S|C]; [|right; exact C].
  left. apply (plain_same ndump H (EMap m) P (EMap n)) in S. congruence.
Qed.
Lemma texts_inj m : forall n, texts m = texts n -> m = n.
Proof. induction m as [|[k v] r IH]; intros [|[k' v'] r']; cbn; intros E; try discriminate; auto. injection E as -> -> E. f_equal. now apply IH. Qed.
Lemma arts_inj m : forall n, arts m = arts n -> m = n.
Proof. induction m as [|[k v] r IH]; intros [|[k' v'] r']; cbn; intros E; try discriminate; auto. injection E as -> -> E. f_equal. now apply IH. Qed.
Lemma texts_plain m : plain (EMap (texts m)) = true.
Proof. induction m as [|[k v] r IH]; cbn in *; auto. Qed.
Lemma arts_plain m : plain (EMap (arts m)) = true.
Proof. induction m as [|[k v] r IH]; cbn in *; auto. Qed.
Lemma texts_finite m : finite ndump H (EMap (texts m)).
Proof. induction m as [|[k v] r IH]; cbn in *; auto. Qed.
Lemma arts_finite m : (forall p j, In (p, j) m -> json_ok j) -> finite ndump H (EMap (arts m)).
Proof.
  induction m as [|[k v] r IH]; cbn in *; auto. intros A. split; [apply (A k); auto|]. apply IH. intros p j Hj. apply (A p). auto.
Qed.
Lemma texts_entries m : string_entries (texts m) = m.
Proof. unfold string_entries, texts. rewrite map_map. cbn. rewrite <- (map_id m) at 2. apply map_ext. now intros []. Qed.
Lemma hv_len v w : String.length (hash_vector H v) = String.length (hash_vector H w).
Proof. apply H_len. Qed.
Lemma th_len a b : String.length (ToHash ndump H a) = String.length (ToHash ndump H b).
Proof. apply (hash_len ndump H FL). Qed.

Theorem id_inj d d' : String.length (ftext (d_timeout d)) = String.length (ftext (d_timeout d')) ->
  (ftext (d_timeout d) = ftext (d_timeout d') -> d_timeout d = d_timeout d') ->
  (forall p j, In (p, j) (d_inputs d) -> json_ok j) -> (forall p j, In (p, j) (d_inputs d') -> json_ok j) ->
  ra_id (create d) = ra_id (create d') -> d = d' \/ collides (hashed d) (hashed d').
Proof.
  intros TL TI J J' E. unfold create, createAction in E. cbn [ra_id] in E. apply C17_hex_encode_injective in E.
  destruct (hash_or _ _ E) as [E'|C].
  2:{ right. eapply collides_app_l; [exact C| |]; intros z [<-|[]]; now left. }
  clear E. unfold action_preimage in E'. apply str_split_len in E' as [_ E]; [|reflexivity].
  apply str_split_len in E as [E1 E]; [|apply hv_len]. apply str_split_len in E as [E2 E]; [|apply hv_len].
  apply str_split_len in E as [E3 E]; [|apply hv_len]. apply str_split_len in E as [E4 E]; [|apply hv_len].
  apply str_split_len in E as [E5 E]; [|apply th_len]. apply str_split_len in E as [E6 E]; [|apply hv_len].
  apply str_split_len in E as [E7 E]; [|now destruct (d_no_cache d), (d_no_cache d')].
  apply str_split_len in E as [E8 E]; [|exact TL]. apply str_split_len in E as [E9 E10]; [|apply th_len].
  fold (opt_list (d_may_fail d)) in E6. fold (opt_list (d_may_fail d')) in E6.
  assert (I1 : forall x, incl (vector_strings (d_outs x)) (hashed x)) by (intros x z Hz; right; apply in_or_app; now left).
  assert (I2 : forall x, incl (vector_strings (d_dirs x)) (hashed x)).
  { intros x z Hz. right. do 1 (apply in_or_app; right). apply in_or_app. now left. }
  assert (I3 : forall x, incl (vector_strings (d_command x)) (hashed x)).
  { intros x z Hz. right. do 2 (apply in_or_app; right). apply in_or_app. now left. }
  assert (I4 : forall x, incl (vector_strings [d_cwd x]) (hashed x)).
  { intros x z Hz. right. do 3 (apply in_or_app; right). apply in_or_app. now left. }
  assert (I5 : forall x, incl (vector_strings (opt_list (d_may_fail x))) (hashed x)).
  { intros x z Hz. right. do 4 (apply in_or_app; right). apply in_or_app. now left. }
  assert (I6 : forall x, incl (preimages ndump H (EMap (texts (d_env x)))) (hashed x)).
  { intros x z Hz. right. do 5 (apply in_or_app; right). apply in_or_app. now left. }
  assert (I7 : forall x, incl (preimages ndump H (EMap (texts (d_props x)))) (hashed x)).
  { intros x z Hz. right. do 6 (apply in_or_app; right). apply in_or_app. now left. }
  assert (I8 : forall x, incl (preimages ndump H (EMap (arts (d_inputs x)))) (hashed x)).
  { intros x z Hz. right. do 7 (apply in_or_app; right). exact Hz. }
  destruct (vector_or _ _ E1) as [R1|C]; [|right; exact (collides_app_l _ _ _ _ C (I1 d) (I1 d'))].
  destruct (vector_or _ _ E2) as [R2|C]; [|right; exact (collides_app_l _ _ _ _ C (I2 d) (I2 d'))].
  destruct (vector_or _ _ E3) as [R3|C]; [|right; exact (collides_app_l _ _ _ _ C (I3 d) (I3 d'))].
  destruct (vector_or _ _ E4) as [R4|C]; [|right; exact (collides_app_l _ _ _ _ C (I4 d) (I4 d'))].
  destruct (vector_or _ _ E6) as [R6|C]; [|right; exact (collides_app_l _ _ _ _ C (I5 d) (I5 d'))].
  destruct (map_or _ _ (texts_finite _) (texts_finite _) (texts_plain _) E5) as [R5|C]; [|right; exact (collides_app_l _ _ _ _ C (I6 d) (I6 d'))].
  destruct (map_or _ _ (texts_finite _) (texts_finite _) (texts_plain _) E9) as [R9|C]; [|right; exact (collides_app_l _ _ _ _ C (I7 d) (I7 d'))].
  destruct (map_or _ _ (arts_finite _ J) (arts_finite _ J') (arts_plain _) E10) as [R10|C]; [|right; exact (collides_app_l _ _ _ _ C (I8 d) (I8 d'))].
  left. apply texts_inj in R5, R9. apply arts_inj in R10. apply TI in E8.
  assert (R7 : d_no_cache d = d_no_cache d') by (destruct (d_no_cache d), (d_no_cache d'); congruence).
  assert (R6' : d_may_fail d = d_may_fail d') by (destruct (d_may_fail d), (d_may_fail d'); cbn in R6; congruence).
  destruct d, d'; cbn in *. congruence.
Qed.
End S.

(** Two actions have the same identifier only if all that is said about them is the same, or the hash function
    collides on strings that were hashed for them. The texts of the time-out have the same length (they
    are all of 24 characters), and different time-outs different texts. *)
Theorem C63_action_identifier : forall ndump H ftext, number_text ndump -> fixed_length H ->
  (forall n m, String.length (ftext n) = String.length (ftext m)) ->
  forall d d', (ftext (d_timeout d) = ftext (d_timeout d') -> d_timeout d = d_timeout d') ->
  (forall p j, In (p, j) (d_inputs d) -> json_ok j) -> (forall p j, In (p, j) (d_inputs d') -> json_ok j) ->
  (ra_id (create ndump H ftext d) = ra_id (create ndump H ftext d') -> d = d' \/ collides H (hashed ndump H ftext d) (hashed ndump H ftext d')).
Proof. intros ndump H ftext NT FL TL d d' TI J J' E. now apply (id_inj ndump H ftext NT FL). Qed.

(** What is said about an action is what the action is made of. *)
Theorem C63_action_content : forall ndump H ftext d,
  let a := create ndump H ftext d in
  ra_outs a = d_outs d /\ ra_out_dirs a = d_dirs d /\ ra_command a = d_command d /\ ra_cwd a = d_cwd d /\
  ra_env a = d_env d /\ ra_may_fail a = d_may_fail d /\ ra_no_cache a = d_no_cache d /\ ra_timeout a = d_timeout d /\
  ra_properties a = d_props d /\ ra_inputs a = d_inputs d.
Proof.
  intros ndump H ftext d a. subst a. unfold create, createAction.
  cbn [ra_outs ra_out_dirs ra_command ra_cwd ra_env ra_may_fail ra_no_cache ra_timeout ra_properties ra_inputs].
  repeat (split; [first [reflexivity|apply texts_entries]|]). unfold arts. rewrite map_map. cbn. rewrite <- (map_id (d_inputs d)) at 2.
  apply map_ext. now intros [].
Qed.

(** The same for trees: [content] is the map of its entries. *)
Theorem C63_tree_identifier : forall ndump H, number_text ndump -> forall c c', json_ok (JObj c) -> json_ok (JObj c') ->
  tree_id ndump H c = tree_id ndump H c' ->
  c = c' \/ exists x y, x = ("TREE:" ^^ dump ndump (JObj c)) /\ y = ("TREE:" ^^ dump ndump (JObj c')) /\ x <> y /\ H x = H y.
Proof.
  intros ndump H NT c c' J J' E. unfold tree_id in E. apply C17_hex_encode_injective in E.
  destruct (string_dec ("TREE:" ^^ dump ndump (JObj c)) ("TREE:" ^^ dump ndump (JObj c'))) as [S|N]; [left|right; eauto 8].
  apply str_split_len in S as [_ S]; [|reflexivity]. apply (dump_injective ndump NT) in S; [congruence|exact J|exact J'].
Qed.

(** And for overlays: the trees, in order, and whether they have to be disjoint. *)
Theorem C63_overlay_identifier : forall ndump H, number_text ndump -> forall l b l' b', json_ok (JArr l) -> json_ok (JArr l') ->
  overlay_id ndump H l b = overlay_id ndump H l' b' ->
  (l = l' /\ b = b') \/ exists x y, x <> y /\ H x = H y /\
    x = ("TREE_OVERLAY:" ^^ dump ndump (JObj [("disjoint", JBool b); ("trees", JArr l)])) /\
    y = ("TREE_OVERLAY:" ^^ dump ndump (JObj [("disjoint", JBool b'); ("trees", JArr l')])).
Proof.
  intros ndump H NT l b l' b' J J' E. unfold overlay_id in E. apply C17_hex_encode_injective in E.
  match type of E with H ?x = H ?y => destruct (string_dec x y) as [S|N]; [left|right; exists x, y; auto] end.
  apply str_split_len in S as [_ S]; [|reflexivity]. apply (dump_injective ndump NT) in S.
  - injection S as -> ->. auto.
  - cbn. auto.
  - cbn. auto.
Qed.

(** A hash of two bytes and two actions that differ in an output: nothing collides, so the identifiers differ. *)
Fixpoint poly (s : string) (h : N) : N :=
  match s with "" => h | String c r => poly r ((h * 31 + N_of_ascii c) mod 65521)%N end.
Definition two_bytes (s : string) : string :=
  let h := poly s 7%N in String (ascii_of_N (h / 256)) (String (ascii_of_N (h mod 256)) "").
Definition ex_described (o : string) : described := mkDescribed [o] [] ["cc"] "" [("A", "1")] None false one [] [("in", JStr "x")].
Definition no_collision_in (H : string -> string) (l l' : list string) : bool :=
  forallb (fun x => forallb (fun y => String.eqb x y || negb (String.eqb (H x) (H y)))%bool l') l.
Lemma no_collision_sound H l l' : no_collision_in H l l' = true -> ~ collides H l l'.
Proof.
  intros E (x & y & A & B & N & C). unfold no_collision_in in E. rewrite forallb_forall in E. specialize (E x A). rewrite forallb_forall in E.
  specialize (E y B). rewrite C, String.eqb_refl in E. cbn in E. rewrite orb_false_r in E. apply String.eqb_eq in E. contradiction.
Qed.
Example C63_nonvacuous :
  number_text toy_ndump /\ fixed_length two_bytes /\ (forall n m : num, String.length ((fun _ : num => "t") n) = String.length ((fun _ : num => "t") m)) /\
  ~ collides two_bytes (hashed toy_ndump two_bytes (fun _ => "t") (ex_described "a")) (hashed toy_ndump two_bytes (fun _ => "t") (ex_described "b")) /\
  ra_id (create toy_ndump two_bytes (fun _ => "t") (ex_described "a")) <> ra_id (create toy_ndump two_bytes (fun _ => "t") (ex_described "b")).
Proof.
  assert (FL : fixed_length two_bytes) by (exists 2; split; [lia|reflexivity]).
  assert (NC : ~ collides two_bytes (hashed toy_ndump two_bytes (fun _ => "t") (ex_described "a")) (hashed toy_ndump two_bytes (fun _ => "t") (ex_described "b")))
    by (apply no_collision_sound; vm_compute; reflexivity).
  split; [exact toy_number_text|]. split; [exact FL|]. split; [reflexivity|]. split; [exact NC|]. intros E.
  apply C63_action_identifier in E; [destruct E as [E|E]; [discriminate|contradiction]|exact toy_number_text|exact FL|reflexivity|reflexivity| |];
    intros p j [X|[]]; injection X as <- <-; exact I.
Qed.

Print Assumptions C63_action_identifier.
Print Assumptions C63_action_content.
Print Assumptions C63_tree_identifier.
Print Assumptions C63_overlay_identifier.
