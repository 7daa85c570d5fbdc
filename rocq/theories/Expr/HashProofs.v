(** Equality of values by hash. *)
From Coq Require Import String Ascii List Bool NArith ZArith Arith SpecFloat Lia.
From Verif Require Import Common.Strs Expr.Json Expr.JsonSpec Expr.Model Expr.HashSpec Expr.DumpProofs.
Import ListNotations.
Local Open Scope string_scope.
Local Open Scope list_scope.
Local Infix "^^" := String.append (at level 60, right associativity).

Lemma str_split_len (a b c d : string) : String.length a = String.length c -> a ^^ b = c ^^ d -> a = c /\ b = d.
Proof.
  revert c. induction a as [|x a IH]; intros [|y c]; cbn; try discriminate; auto.
  intros L E. inversion E; subst. destruct (IH c) as [-> ->]; auto.
Qed.

Lemma sconcat_cons x l : String.concat "" (x :: l) = x ^^ String.concat "" l.
Proof. destruct l; cbn; [now rewrite app_str_nil_r|reflexivity]. Qed.

Section P.
Variable ndump : num -> string.
Variable H : string -> string.
Hypothesis NT : number_text ndump.
Hypothesis FL : fixed_length H.

Local Notation hash := (ToHash ndump H).
Local Notation pre := (preimages ndump H).
Local Notation coll := (hash_collision ndump H).
Local Notation same := (same ndump H).
Local Notation finite := (finite ndump H).

Definition top (e : expr) : string := hd "" (pre e).
Lemma hash_top e : hash e = H (top e).
Proof. destruct e; reflexivity. Qed.
Lemma top_in e : In (top e) (pre e).
Proof. destruct e; cbn; auto. Qed.

Lemma hash_len a b : String.length (hash a) = String.length (hash b).
Proof. destruct FL as (n & Hn & Hl). rewrite !hash_top, !Hl. reflexivity. Qed.
Lemma hash_pos a : 0 < String.length (hash a).
Proof. destruct FL as (n & Hn & Hl). rewrite !hash_top, !Hl. auto. Qed.

Definition Q (a : expr) : Prop := finite a -> forall b, finite b -> hash a = hash b -> same a b \/ coll a b.

Lemma list_case l1 : Forall Q l1 -> fold_right (fun x P => finite x /\ P) True l1 -> forall l2,
  fold_right (fun x P => finite x /\ P) True l2 ->
  String.concat "" (map hash l1) = String.concat "" (map hash l2) ->
  same (EList l1) (EList l2) \/
  exists x y, In x (concat (map pre l1)) /\ In y (concat (map pre l2)) /\ x <> y /\ H x = H y.
Proof.
  induction 1 as [|x1 l1 Hx Hl IH]; intros O1 [|x2 l2] O2; cbn [map].
  - left. exact I.
  - rewrite sconcat_cons. intros E. apply (f_equal String.length) in E. rewrite app_str_length in E.
    pose proof (hash_pos x2). cbn in E. lia.
  - rewrite sconcat_cons. intros E. apply (f_equal String.length) in E. rewrite app_str_length in E.
    pose proof (hash_pos x1). cbn in E. lia.
  - rewrite !sconcat_cons. intros E. apply str_split_len in E as [E1 E2]; [|apply hash_len].
    destruct O1 as [O1 O1'], O2 as [O2 O2'].
    destruct (Hx O1 x2 O2 E1) as [S1|(x & y & Hi & Hj & Hn & He)].
    + destruct (IH O1' l2 O2' E2) as [S2|(x & y & Hi & Hj & Hn & He)].
      * left. cbn. auto.
      * right. exists x, y. cbn. rewrite !in_app_iff. auto.
    + right. exists x, y. cbn. rewrite !in_app_iff. auto.
Qed.

Definition mh (p : string * expr) : string := match p with (k, v) => H k ^^ hash v end.
Definition mp (p : string * expr) : list string := match p with (k, v) => k :: pre v end.

Lemma map_case l1 : Forall (fun p => Q (snd p)) l1 ->
  fold_right (fun p P => (match p with (_, v) => finite v end) /\ P) True l1 -> forall l2,
  fold_right (fun p P => (match p with (_, v) => finite v end) /\ P) True l2 ->
  String.concat "" (map mh l1) = String.concat "" (map mh l2) ->
  same (EMap l1) (EMap l2) \/
  exists x y, In x (concat (map mp l1)) /\ In y (concat (map mp l2)) /\ x <> y /\ H x = H y.
Proof.
  assert (HL : forall a b, String.length (H a) = String.length (H b)).
  { destruct FL as (n & Hn & HL). intros. now rewrite !HL. }
  induction 1 as [|[k1 x1] l1 Hx Hl IH]; intros O1 [|[k2 x2] l2] O2; cbn [map].
  - left. exact I.
  - rewrite sconcat_cons. intros E. apply (f_equal String.length) in E. unfold mh in E at 1. rewrite !app_str_length in E.
    pose proof (hash_pos x2). cbn in E. lia.
  - rewrite sconcat_cons. intros E. apply (f_equal String.length) in E. unfold mh in E at 1. rewrite !app_str_length in E.
    pose proof (hash_pos x1). cbn in E. lia.
  - rewrite !sconcat_cons. unfold mh at 1 3. rewrite !app_str_assoc. intros E.
    apply str_split_len in E as [E0 E]; [|apply HL].
    apply str_split_len in E as [E1 E2]; [|apply hash_len].
    destruct O1 as [O1 O1'], O2 as [O2 O2'].
    destruct (string_dec k1 k2) as [->|Hk]; [|right; exists k1, k2; cbn; auto].
    destruct (Hx O1 x2 O2 E1) as [S1|(x & y & Hi & Hj & Hn & He)].
    + destruct (IH O1' l2 O2' E2) as [S2|(x & y & Hi & Hj & Hn & He)].
      * left. cbn. auto.
      * right. exists x, y. cbn. rewrite !in_app_iff. auto.
    + right. exists x, y. cbn. rewrite !in_app_iff. auto.
Qed.

(** Kinds of values by the first character of the hashed text. *)
Definition ekind (e : expr) : nat :=
  match e with
  | ENone => 0 | EBool true => 1 | EBool false => 2 | EStr _ => 3 | ENum _ => 4
  | EList _ => 5 | EMap _ => 6 | EArt _ => 8 | EResult _ _ _ _ => 9 | ENode _ _ => 10 | EName _ => 11
  end.
Definition ckind (c : ascii) : nat :=
  if Ascii.eqb c "@" then 8 else if Ascii.eqb c "=" then 9 else if Ascii.eqb c "#" then 10
  else if Ascii.eqb c "$" then 11 else kind c.
Lemma top_kind e : finite e -> exists c r, top e = String c r /\ ckind c = ekind e.
Proof.
  intros Hf. unfold top. destruct e; cbn [preimages hd]; try (destruct b);
    try (eexists; eexists; split; [reflexivity|reflexivity]).
  unfold ToString. cbn [ToJson dump]. cbn in Hf. destruct (num_head ndump NT n Hf) as (c & r & E & Hc). exists c, r.
  split; auto. unfold ckind, kind. rewrite Hc.
  destruct c as [[] [] [] [] [] [] [] []]; try discriminate Hc; reflexivity.
Qed.

Lemma top_eq_kind a b : finite a -> finite b -> top a = top b -> ekind a = ekind b.
Proof.
  intros Fa Fb E. destruct (top_kind a Fa) as (c & r & E1 & K1). destruct (top_kind b Fb) as (d & s & E2 & K2).
  rewrite E1, E2 in E. inversion E; subst. congruence.
Qed.

Lemma hash_same a : Q a.
Proof.
  induction a using expr_ind'; intros Fa b0 Fb E;
    (match type of E with hash ?x = _ => destruct (string_dec (top x) (top b0)) as [T|T] end;
     [|match type of T with ?x <> ?y => right; exists x, y; split; [apply top_in|split; [apply top_in|split; [exact T|now rewrite <- !hash_top]]] end]);
    pose proof (top_eq_kind _ _ Fa Fb T) as K.
  - destruct b0 as [|[]| | | | | | | |]; try discriminate. now left.
  - destruct b, b0 as [|[]| | | | | | | |]; try discriminate; now left.
  - destruct b0 as [|[]| | | | | | | |]; try discriminate. left.
    apply (dump_injective ndump NT (JNum n) (JNum n0)) in T; auto. cbn. congruence.
  - destruct b0 as [|[]| | | | | | | |]; try discriminate. left.
    apply (dump_injective ndump NT (JStr s) (JStr s0)) in T; cbn; auto. congruence.
  - destruct b0 as [|[]| | | | | | | |]; try discriminate. left.
    apply (app_str_inv_head "$") in T. apply (dump_injective ndump NT j j0) in T; auto. cbn. congruence.
  - destruct b0 as [|[]| | | | | | | |]; try discriminate. left.
    apply (app_str_inv_head "@") in T. apply (dump_injective ndump NT j j0) in T; auto. cbn. congruence.
  - destruct b0 as [|[]| | | | | | | |]; try discriminate. left.
    apply (app_str_inv_head "=") in T. apply (dump_injective ndump NT _ _ Fa Fb) in T. exact T.
  - destruct b0 as [|[]| | | | | | | |]; try discriminate. left.
    apply (app_str_inv_head "#") in T. apply (dump_injective ndump NT j j0) in T; auto.
  - destruct b0 as [|[]| | | | | | | |]; try discriminate.
    unfold top in T. cbn [preimages hd] in T. apply (app_str_inv_head "[") in T.
    destruct (list_case l H0 Fa l0 Fb T) as [S1|(x & y & Hi & Hj & Hn & He)]; [now left|].
    right. exists x, y. repeat split; auto; now right.
  - destruct b0 as [|[]| | | | | | | |]; try discriminate.
    unfold top in T. cbn [preimages hd] in T. apply (app_str_inv_head "{") in T.
    destruct (map_case m H0 Fa m0 Fb T) as [S1|(x & y & Hi & Hj & Hn & He)]; [now left|].
    right. exists x, y. repeat split; auto; now right.
Qed.

Lemma same_hash a : forall b, same a b -> hash a = hash b.
Proof.
  induction a using expr_ind'; intros b0 Hs;
    try (destruct b0; cbn in Hs; try discriminate; try (inversion Hs; reflexivity); fail).
  - destruct b0; cbn [HashSpec.same] in Hs; try discriminate. cbn [ToHash]. unfold ToString. now rewrite Hs.
  - destruct b0; cbn [HashSpec.same] in Hs; try discriminate. cbn [ToHash]. f_equal. f_equal.
    assert (E : map hash l = map hash l0); [|now rewrite E].
    revert l0 Hs. induction H0 as [|x l Hx Hl IH]; intros [|y l0] Hs; try destruct Hs; auto.
    cbn [map]. f_equal; auto.
  - destruct b0; cbn [HashSpec.same] in Hs; try discriminate. cbn [ToHash]. f_equal. f_equal.
    change (String.concat "" (map mh m) = String.concat "" (map mh m0)).
    assert (E : map mh m = map mh m0); [|now rewrite E].
    revert m0 Hs. induction H0 as [|[k x] m Hx Hl IH]; intros [|[k' y] m0] Hs; try (destruct Hs; fail); auto.
    destruct Hs as (Hk & Hv & Hr). cbn [map]. f_equal; auto. cbn in *. f_equal; [congruence|auto].
Qed.

Lemma plain_same a : plain a = true -> forall b, same a b <-> a = b.
Proof.
  induction a using expr_ind'; intros Hp b0; cbn in Hp; try discriminate;
    try (destruct b0; cbn; split; intros; try discriminate; congruence).
  - destruct b0; try (cbn; split; discriminate). cbn [HashSpec.same].
    assert (E : (fix go (l l' : list expr) : Prop :=
         match l, l' with
         | [], [] => True
         | x :: r, x' :: r' => same x x' /\ go r r'
         | _, _ => False
         end) l l0 <-> l = l0); [|rewrite E; split; congruence].
    revert l0 Hp. induction H0 as [|x l Hx Hl IH]; intros [|y l0] Hp; try (split; [tauto|discriminate]); [tauto|].
    cbn in Hp. apply andb_prop in Hp as [P1 P2]. rewrite (Hx P1 y), (IH l0 P2). split; [intros [-> ->]; auto|].
    intros E; inversion E; auto.
  - destruct b0; try (cbn; split; discriminate). cbn [HashSpec.same].
    assert (E : (fix go (m m' : list (string * expr)) : Prop :=
         match m, m' with
         | [], [] => True
         | (k, x) :: r, (k', x') :: r' => k = k' /\ same x x' /\ go r r'
         | _, _ => False
         end) m m0 <-> m = m0); [|rewrite E; split; congruence].
    revert m0 Hp. induction H0 as [|[k x] l Hx Hl IH]; intros [|[k' y] l0] Hp; try (split; [tauto|discriminate]); [tauto|].
    cbn in Hp. apply andb_prop in Hp as [P1 P2]. cbn in Hx. rewrite (Hx P1 y), (IH l0 P2). split; [intros (-> & -> & ->); auto|].
    intros E; inversion E; auto.
Qed.

End P.
