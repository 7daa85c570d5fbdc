(** JSON texts are unambiguous. *)
From Coq Require Import String Ascii List Bool NArith ZArith Arith SpecFloat Lia DecimalString Decimal.
From Coq Require Import DecimalPos DecimalN.
From Verif Require Import Common.Strs Expr.Json Expr.JsonSpec.
Import ListNotations.
Local Open Scope string_scope.
Local Open Scope list_scope.
Local Infix "^^" := String.append (at level 60, right associativity).

(** ** Decimal texts *)
Lemma uint_chars d : all_chars is_digit (NilEmpty.string_of_uint d) = true.
Proof. induction d; cbn; auto. Qed.
Lemma uint_chars0 d : all_chars is_digit (NilZero.string_of_uint d) = true.
Proof. destruct d; try apply uint_chars; reflexivity. Qed.
Lemma uint_nonempty d : NilZero.string_of_uint d <> "".
Proof. destruct d; cbn; discriminate. Qed.
Lemma uint_inj0 d d' : d <> Nil -> d' <> Nil -> NilZero.string_of_uint d = NilZero.string_of_uint d' -> d = d'.
Proof.
  intros H1 H2 E. pose proof (NilZero.usu d H1) as E1. pose proof (NilZero.usu d' H2) as E2.
  rewrite E in E1. rewrite E1 in E2. now inversion E2.
Qed.
Lemma N_uint_nonnil n : N.to_uint n <> Nil.
Proof. destruct n; cbn; [discriminate|]. apply DecimalPos.Unsigned.to_uint_nonnil. Qed.
Lemma N_text_inj n n' : NilZero.string_of_uint (N.to_uint n) = NilZero.string_of_uint (N.to_uint n') -> n = n'.
Proof. intros E. apply DecimalN.Unsigned.to_uint_inj. apply uint_inj0; auto using N_uint_nonnil. Qed.

Lemma digit_head s c r : all_chars is_digit s = true -> s = String c r -> is_digit c = true.
Proof. intros Ha ->. cbn in Ha. now apply andb_prop in Ha as [Ha _]. Qed.

Lemma dec_Z_head z : exists c r, dec_Z z = String c r /\ (c = "-"%char \/ is_digit c = true).
Proof.
  assert (Hu : forall d, exists c r, NilZero.string_of_uint d = String c r /\ is_digit c = true).
  { intros d. destruct (NilZero.string_of_uint d) as [|c r] eqn:E; [now apply uint_nonempty in E|].
    exists c, r. split; auto. eapply digit_head; [|exact E]. apply uint_chars0. }
  destruct z; cbn; try (destruct (Hu (N.to_uint (Z.to_N (Zpos p)))) as (c & r & E & Hd)); eauto 10.
Qed.

Lemma dec_Z_chars z : all_chars (fun c => is_digit c || Ascii.eqb c "-") (dec_Z z) = true.
Proof.
  assert (Hw : forall s, all_chars is_digit s = true -> all_chars (fun c => is_digit c || Ascii.eqb c "-") s = true).
  { induction s; cbn; auto. intros E. apply andb_prop in E as [E1 E2]. now rewrite E1, IHs. }
  destruct z; cbn -[NilZero.string_of_uint]; try (apply Hw, uint_chars0); auto.
Qed.

Lemma dec_Z_inj a b : dec_Z a = dec_Z b -> a = b.
Proof.
  assert (Hm : forall d s, NilZero.string_of_uint d = String "-" s -> False).
  { intros d s E. eapply digit_head in E; [|apply uint_chars0]. discriminate. }
  assert (Hz : forall z, (0 <= z)%Z -> dec_Z z = NilZero.string_of_uint (N.to_uint (Z.to_N z))).
  { intros [|p|p] Hp; auto. lia. }
  destruct (Z.lt_ge_cases a 0) as [Ha|Ha], (Z.lt_ge_cases b 0) as [Hb|Hb].
  - destruct a as [|?|p], b as [|?|q]; try lia. cbn. intros E. inversion E as [E'].
    apply uint_inj0 in E'; auto using DecimalPos.Unsigned.to_uint_nonnil. apply DecimalPos.Unsigned.to_uint_inj in E'. now subst.
  - rewrite (Hz b Hb). destruct a as [|?|p]; try lia. intros E. symmetry in E. now apply Hm in E.
  - rewrite (Hz a Ha). destruct b as [|?|p]; try lia. intros E. now apply Hm in E.
  - rewrite (Hz a Ha), (Hz b Hb). intros E. apply N_text_inj in E. apply Z2N.inj in E; auto.
Qed.

(** ** Strings *)
Definition unhex (c : ascii) : N := let n := N_of_ascii c in if N.ltb n 58 then n - 48 else n - 87.
Definition decode_first (s : string) : option (ascii * string) :=
  match s with
  | String c r =>
      if Ascii.eqb c """" then None
      else if Ascii.eqb c "\" then
        match r with
        | String "b" r' => Some (ascii_of_N 8, r')
        | String "t" r' => Some (ascii_of_N 9, r')
        | String "n" r' => Some (ascii_of_N 10, r')
        | String "f" r' => Some (ascii_of_N 12, r')
        | String "r" r' => Some (ascii_of_N 13, r')
        | String "u" (String _ (String _ (String a (String b r')))) => Some (ascii_of_N (16 * unhex a + unhex b), r')
        | String d r' => Some (d, r')
        | "" => None
        end
      else Some (c, r)
  | "" => None
  end.
Lemma decode_esc c x : decode_first (esc_char c ^^ x) = Some (c, x).
Proof. destruct c as [[] [] [] [] [] [] [] []]; reflexivity. Qed.
Lemma esc_inj a : forall b r1 r2, esc a ^^ dq ^^ r1 = esc b ^^ dq ^^ r2 -> a = b /\ r1 = r2.
Proof.
  induction a as [|c a IH]; intros [|d b] r1 r2; cbn [esc].
  - intros E. apply app_str_inv_head in E. now apply app_str_inv_head in E.
  - rewrite app_str_assoc. intros E. apply (f_equal decode_first) in E. rewrite decode_esc in E. discriminate.
  - rewrite app_str_assoc. intros E. apply (f_equal decode_first) in E. rewrite decode_esc in E. discriminate.
  - rewrite !app_str_assoc. intros E. apply (f_equal decode_first) in E. rewrite !decode_esc in E.
    inversion E as [[E1 E2]]. apply IH in E2 as [-> ->]. auto.
Qed.
Lemma quote_inj a b r1 r2 : quote a ^^ r1 = quote b ^^ r2 -> a = b /\ r1 = r2.
Proof.
  unfold quote. rewrite !app_str_assoc. intros E. apply app_str_inv_head in E. now apply esc_inj.
Qed.

(** ** Values *)
Definition delim (r : string) : Prop :=
  match r with "" => True | String c _ => c = ","%char \/ c = "]"%char \/ c = "}"%char end.

Lemma delim_numchar c r : delim (String c r) -> numchar c = false.
Proof. intros [->|[->| ->]]; reflexivity. Qed.

Lemma word_inj s1 : forall s2 r1 r2, all_chars numchar s1 = true -> all_chars numchar s2 = true ->
  delim r1 -> delim r2 -> s1 ^^ r1 = s2 ^^ r2 -> s1 = s2 /\ r1 = r2.
Proof.
  induction s1 as [|c s1 IH]; intros [|d s2] r1 r2; cbn; auto.
  - intros _ E2 D1 _ E. subst r1. apply delim_numchar in D1. now rewrite D1 in E2.
  - intros E1 _ _ D2 E. subst r2. apply delim_numchar in D2. now rewrite D2 in E1.
  - intros E1 E2 D1 D2 E. apply andb_prop in E1 as [_ E1]. apply andb_prop in E2 as [_ E2].
    inversion E as [[Ec Es]]. destruct (IH _ _ _ E1 E2 D1 D2 Es) as [-> ->]. auto.
Qed.

Lemma dec_Z_numchars z : all_chars numchar (dec_Z z) = true.
Proof.
  assert (Hw : forall s, all_chars (fun c => is_digit c || Ascii.eqb c "-") s = true -> all_chars numchar s = true).
  { induction s; cbn; auto. intros E. apply andb_prop in E as [E1 E2]. rewrite (IHs E2). unfold numchar.
    now rewrite E1. }
  apply Hw, dec_Z_chars.
Qed.

Section D.
Variable ndump : num -> string.
Hypothesis NT : number_text ndump.

Lemma num_head n : num_ok n -> exists c r, num_text ndump n = String c r /\ numchar c = true.
Proof.
  intros Hn. unfold num_text. rewrite (proj1 Hn). destruct (proj1 NT n Hn) as (Hc & Hne & _).
  destruct (ndump n) as [|c r]; [congruence|]. cbn in Hc. apply andb_prop in Hc as [Hc _]. eauto.
Qed.

(** Kinds of values, by the first character of the text. *)
Definition kind (c : ascii) : nat :=
  if numchar c then 4 else
  match c with "n"%char => 0 | "t"%char => 1 | "f"%char => 2 | """"%char => 3 | "["%char => 5 | "{"%char => 6 | _ => 7 end.
Definition jkind (j : json) : nat :=
  match j with JNull => 0 | JBool true => 1 | JBool false => 2 | JStr _ => 3 | JInt _ | JNum _ => 4 | JArr _ => 5 | JObj _ => 6 end.
Lemma dump_head j : json_ok j -> exists c r, dump ndump j = String c r /\ kind c = jkind j.
Proof.
  destruct j; cbn -[num_text quote]; intros Hj; try (destruct b); try (eexists; eexists; split; reflexivity).
  - destruct (dec_Z_head z) as (c & r & E & Hc). exists c, r. split; auto. unfold kind.
    assert (numchar c = true) as ->; auto. destruct Hc as [->|Hc]; [reflexivity|unfold numchar; now rewrite Hc].
  - destruct (num_head n Hj) as (c & r & E & Hc). exists c, r. split; auto. unfold kind. now rewrite Hc.
Qed.

Lemma kind_eq j1 j2 r1 r2 : json_ok j1 -> json_ok j2 -> dump ndump j1 ^^ r1 = dump ndump j2 ^^ r2 -> jkind j1 = jkind j2.
Proof.
  intros O1 O2 E. destruct (dump_head j1 O1) as (c & s & E1 & K1). destruct (dump_head j2 O2) as (d & t & E2 & K2).
  rewrite E1, E2 in E. cbn in E. inversion E as [[Ec Er]]. congruence.
Qed.

Lemma num_text_chars n : num_ok n -> all_chars numchar (num_text ndump n) = true.
Proof. intros Hn. unfold num_text. rewrite (proj1 Hn). now destruct (proj1 NT n Hn). Qed.

Definition PF (j1 : json) : Prop := json_ok j1 -> forall j2 r1 r2, json_ok j2 -> delim r1 -> delim r2 ->
  dump ndump j1 ^^ r1 = dump ndump j2 ^^ r2 -> j1 = j2 /\ r1 = r2.

Lemma elems_inj l1 : Forall PF l1 -> fold_right (fun x P => json_ok x /\ P) True l1 -> forall l2 r1 r2,
  fold_right (fun x P => json_ok x /\ P) True l2 ->
  str_concat "," (map (dump ndump) l1) ^^ "]" ^^ r1 = str_concat "," (map (dump ndump) l2) ^^ "]" ^^ r2 ->
  l1 = l2 /\ r1 = r2.
Proof.
  assert (Hb : forall j s r, json_ok j -> "]" ^^ r = dump ndump j ^^ s -> False).
  { intros j s r Hj E. destruct (dump_head j Hj) as (c & t & E1 & K). rewrite E1 in E. cbn in E.
    inversion E as [[Ec Er]]. subst c. destruct j as [|[]| | | | |]; cbn in K; discriminate. }
  assert (Hstep : forall x r t, exists t', str_concat "," (map (dump ndump) (x :: r)) ^^ "]" ^^ t = dump ndump x ^^ t' /\
     t' = match r with [] => "]" ^^ t | _ => "," ^^ str_concat "," (map (dump ndump) r) ^^ "]" ^^ t end).
  { intros x r t. eexists. split; [|reflexivity]. destruct r as [|y r]; [reflexivity|].
    cbn [map str_concat]. rewrite !app_str_assoc. reflexivity. }
  induction 1 as [|x1 l1 Hx Hl IH]; intros O1 l2 r1 r2 O2 E.
  - destruct l2 as [|x2 l2]; [split; [reflexivity|exact (app_str_inv_head "]" _ _ E)]|].
    destruct (Hstep x2 l2 r2) as (t & Et & _). rewrite Et in E. exfalso. eapply Hb; [|exact E]. apply O2.
  - destruct l2 as [|x2 l2].
    { destruct (Hstep x1 l1 r1) as (t & Et & _). rewrite Et in E. exfalso. eapply Hb; [|symmetry; exact E]. apply O1. }
    destruct (Hstep x1 l1 r1) as (t1 & Et1 & D1). destruct (Hstep x2 l2 r2) as (t2 & Et2 & D2).
    rewrite Et1, Et2 in E. apply Hx in E; [|apply O1|apply O2| |].
    + destruct E as [-> E]. rewrite D1, D2 in E. clear Et1 Et2 D1 D2. destruct l1 as [|y1 l1], l2 as [|y2 l2].
      * apply app_str_inv_head in E. auto.
      * cbn in E. discriminate.
      * cbn in E. discriminate.
      * apply app_str_inv_head in E. apply IH in E; [|apply O1|apply O2]. destruct E as [-> ->]. auto.
    + rewrite D1. destruct l1; cbn; auto.
    + rewrite D2. destruct l2; cbn; auto.
Qed.

Definition mtext (p : string * json) : string := match p with (k, v) => quote k ^^ ":" ^^ dump ndump v end.

Lemma members_inj l1 : Forall (fun p => PF (snd p)) l1 ->
  fold_right (fun p P => (match p with (_, v) => json_ok v end) /\ P) True l1 -> forall l2 r1 r2,
  fold_right (fun p P => (match p with (_, v) => json_ok v end) /\ P) True l2 ->
  str_concat "," (map mtext l1) ^^ "}" ^^ r1 = str_concat "," (map mtext l2) ^^ "}" ^^ r2 ->
  l1 = l2 /\ r1 = r2.
Proof.
  assert (Hb : forall p s r, "}" ^^ r = mtext p ^^ s -> False).
  { intros [k v] s r E. cbn in E. discriminate. }
  assert (Hstep : forall x r t, exists t', str_concat "," (map mtext (x :: r)) ^^ "}" ^^ t = mtext x ^^ t' /\
     t' = match r with [] => "}" ^^ t | _ => "," ^^ str_concat "," (map mtext r) ^^ "}" ^^ t end).
  { intros x r t. eexists. split; [|reflexivity]. destruct r as [|y r]; [reflexivity|].
    cbn [map str_concat]. rewrite !app_str_assoc. reflexivity. }
  induction 1 as [|[k1 x1] l1 Hx Hl IH]; intros O1 l2 r1 r2 O2 E.
  - destruct l2 as [|x2 l2]; [split; [reflexivity|exact (app_str_inv_head "}" _ _ E)]|].
    destruct (Hstep x2 l2 r2) as (t & Et & _). rewrite Et in E. exfalso. eapply Hb. exact E.
  - destruct l2 as [|[k2 x2] l2].
    { destruct (Hstep (k1, x1) l1 r1) as (t & Et & _). rewrite Et in E. exfalso. eapply Hb. symmetry; exact E. }
    destruct (Hstep (k1, x1) l1 r1) as (t1 & Et1 & D1). destruct (Hstep (k2, x2) l2 r2) as (t2 & Et2 & D2).
    rewrite Et1, Et2 in E. unfold mtext in E at 1. unfold mtext in E at 1. cbv beta iota in E.
    rewrite !app_str_assoc in E. apply quote_inj in E as [-> E]. apply app_str_inv_head in E.
    cbn [snd] in Hx. apply Hx in E; [|apply O1|apply O2| |].
    + destruct E as [-> E]. rewrite D1, D2 in E. clear Et1 Et2 D1 D2. destruct l1 as [|y1 l1], l2 as [|y2 l2].
      * apply app_str_inv_head in E. auto.
      * cbn in E. discriminate.
      * cbn in E. discriminate.
      * apply app_str_inv_head in E. apply IH in E; [|apply O1|apply O2]. destruct E as [-> ->]. auto.
    + rewrite D1. destruct l1; cbn; auto.
    + rewrite D2. destruct l2; cbn; auto.
Qed.

Lemma dump_unambiguous j : PF j.
Proof.
  induction j as [| b | z | n | s | l IHl | m IHm] using json_ind'; intros O1 j2 r1 r2 O2 D1 D2 E;
    pose proof (kind_eq _ _ _ _ O1 O2 E) as K.
  - destruct j2 as [|[]| | | | |]; try discriminate. apply app_str_inv_head in E. auto.
  - destruct b, j2 as [|[]| | | | |]; try discriminate; apply app_str_inv_head in E; auto.
  - destruct j2 as [|[]| | | | |]; try discriminate; cbn [dump] in E.
    + apply word_inj in E; auto using dec_Z_numchars. destruct E as [E ->]. apply dec_Z_inj in E. now subst.
    + apply word_inj in E; auto using dec_Z_numchars, num_text_chars. destruct E as [E ->]. exfalso.
      cbn in O2. destruct (proj1 NT n O2) as (_ & _ & Hm). unfold num_text in E. rewrite (proj1 O2) in E.
      rewrite <- E, dec_Z_chars in Hm. discriminate.
  - destruct j2 as [|[]| | | | |]; try discriminate; cbn [dump] in E.
    + apply word_inj in E; auto using dec_Z_numchars, num_text_chars. destruct E as [E ->]. exfalso.
      cbn in O1. destruct (proj1 NT n O1) as (_ & _ & Hm). unfold num_text in E. rewrite (proj1 O1) in E.
      rewrite E, dec_Z_chars in Hm. discriminate.
    + apply word_inj in E; auto using num_text_chars. destruct E as [E ->]. unfold num_text in E.
      rewrite (proj1 O1), (proj1 O2) in E. apply (proj2 NT) in E; auto. now subst.
  - destruct j2 as [|[]| | | | |]; try discriminate. cbn [dump] in E. apply quote_inj in E as [-> ->]. auto.
  - destruct j2 as [|[]| | | | |]; try discriminate. cbn [dump] in E. rewrite !app_str_assoc in E.
    apply app_str_inv_head in E. apply elems_inj in E; auto. destruct E as [-> ->]; auto.
  - destruct j2 as [|[]| | | | |]; try discriminate. cbn [dump] in E. rewrite !app_str_assoc in E.
    apply app_str_inv_head in E. apply members_inj in E; auto. destruct E as [-> ->]; auto.
Qed.

Theorem dump_injective j1 j2 : json_ok j1 -> json_ok j2 -> dump ndump j1 = dump ndump j2 -> j1 = j2.
Proof.
  intros O1 O2 E. apply (dump_unambiguous j1 O1 j2 "" ""); cbn; auto. now rewrite !app_str_nil_r.
Qed.

End D.
