(** Model of reading object ids given on the command line,
    src/buildtool/main/install_cas.cpp:68-101 [ObjectInfoFromLiberalString].
    The warning about sizes in compatible mode is not modelled. *)
From Coq Require Import String Ascii List Bool NArith DecimalString Lia.
From Verif Require Import Common.Strs Hex.Model Expr.Json Expr.JsonSpec Expr.DumpProofs Describe.Model Describe.Spec Describe.Proofs.
Local Open Scope string_scope.

(** [std::atol] (glibc: values out of range are cut to the range of a 64-bit [long]), converted to
    [std::size_t]. Without digits the value is 0. *)
Definition atol_size (s : string) : N :=
  let s1 := skip_space s in
  let '(neg, s2) :=
    match s1 with
    | String c r =>
        if Ascii.eqb c "+" then (false, r) else if Ascii.eqb c "-" then (true, r) else (false, s1)
    | EmptyString => (false, s1)
    end in
  let v := match digits10 s2 0 false with Some n => n | None => 0%N end in
  if neg then ((2 ^ 64 - N.min v (2 ^ 63)) mod 2 ^ 64)%N else N.min v (2 ^ 63 - 1).

(** install_cas.cpp:68-101. The stream is at its end after reading a token that is not ended by the
    delimiter; then the variables keep their initial values. *)
Definition ObjectInfoFromLiberalString (t : hash_type) (s : string) : option object_info :=
  let s1 := match s with String c r => if Ascii.eqb c "[" then r else s | "" => "" end in
  let '(id, st1) := getline_go ":" s1 in
  let '(size_str, st2) := match st1 with Some r => getline_go ":" r | None => ("", None) end in
  let type := match st2 with Some r => fst (getline_go "]" r) | None => "f" end in
  let size := match size_str with "" => 0%N | _ => atol_size size_str end in
  let ot := FromChar (first_char type) in
  match create_digest t id size (IsTreeObject ot) with
  | Some d => Some (mkInfo d ot false)
  | None => None
  end.

(** * Proofs *)

Lemma atol_text n : (n < 2 ^ 63)%N -> atol_size (N_text n) = n.
Proof.
  intros Hn. rewrite N_text_empty. unfold atol_size.
  destruct (digit_no_space (N.to_uint n) (N_uint_nonnil n)) as [-> (c & r & E & E1 & E2)].
  rewrite E, E1, E2, <- E.
  pose proof (digits10_uint (N.to_uint n) 0 "" false I (or_intror (N_uint_nonnil n))) as D.
  rewrite app_str_nil_r in D. rewrite D, dval_zero, DecimalN.Unsigned.of_to. lia.
Qed.

Lemma atol_bound s : (atol_size s < 2 ^ 64)%N.
Proof.
  unfold atol_size.
  match goal with |- context [let '(a, b) := ?x in _] => destruct x as [neg s2] end.
  destruct (digits10 s2 0 false) as [m|]; destruct neg;
    try (apply N.mod_lt; discriminate);
    assert (2 ^ 63 - 1 < 2 ^ 64)%N by reflexivity; lia.
Qed.

Lemma size_text n : (n < 2 ^ 63)%N ->
  match N_text n with "" => 0%N | _ => atol_size (N_text n) end = n.
Proof.
  intro H. rewrite (atol_text n H). rewrite N_text_empty.
  destruct (digit_no_space (N.to_uint n) (N_uint_nonnil n)) as [_ (c & r & E & _)].
  now rewrite E.
Qed.

Lemma getline_go_end delim tok : no_char delim tok -> getline_go delim tok = (tok, None).
Proof.
  induction tok as [|c r IH]; cbn; [reflexivity|]. intros [H1 H2].
  apply Ascii.eqb_neq in H1. now rewrite H1, IH.
Qed.

Lemma getline_go_split delim s : forall tok st, getline_go delim s = (tok, st) ->
  no_char delim tok /\
  s = (tok ++ match st with Some r => String delim r | None => "" end)%string.
Proof.
  induction s as [|c s IH]; intros tok st; cbn [getline_go].
  - intros E. injection E as <- <-. split; reflexivity.
  - destruct (Ascii.eqb_spec c delim) as [->|N].
    + intros E. injection E as <- <-. split; reflexivity.
    + destruct (getline_go delim s) as [tok' st'] eqn:G. intros E. injection E as <- <-.
      destruct (IH tok' st' eq_refl) as [H1 H2]. split; [now split|]. cbn [append]. now rewrite <- H2.
Qed.

Lemma strip_hex t h rest : hash_ok t h ->
  match (h ++ rest)%string with String c r => if Ascii.eqb c "[" then r else (h ++ rest)%string | "" => "" end
  = (h ++ rest)%string.
Proof.
  intros [L F]. destruct h as [|c h].
  - destruct t; discriminate L.
  - cbn [append]. inversion F as [|? ? Hc _]; subst.
    destruct (Ascii.eqb_spec c "[") as [->|]; [|reflexivity].
    exfalso. unfold hex_digit in Hc. vm_compute in Hc.
    repeat (destruct Hc as [Hc|Hc]; [discriminate Hc|]). exact Hc.
Qed.

Lemma strip_open t h rest b : hash_ok t h -> b = "" \/ b = "[" ->
  match (b ++ h ++ rest)%string with String c r => if Ascii.eqb c "[" then r else (b ++ h ++ rest)%string | "" => "" end
  = (h ++ rest)%string.
Proof. intros H [->| ->]; [exact (strip_hex t h rest H)|reflexivity]. Qed.

Lemma create_ok t h n ty : hash_ok t h ->
  create_digest t h n (IsTreeObject ty) = Some (mkDigest h (IsTreeAllowed t && IsTreeObject ty) n).
Proof.
  intro H. unfold create_digest.
  replace (valid_input t h (IsTreeAllowed t && IsTreeObject ty)) with true; [reflexivity|].
  symmetry. apply valid_input_spec. split; [exact H|].
  destruct t; [reflexivity|discriminate].
Qed.

Lemma liberal_full t b h n ty rest : hash_ok t h -> (n < 2 ^ 63)%N -> b = "" \/ b = "[" ->
  ObjectInfoFromLiberalString t (b ++ h ++ ":" ++ N_text n ++ ":" ++ String (ToChar ty) rest) =
  Some (mkInfo (mkDigest h (IsTreeAllowed t && IsTreeObject ty) n) ty false).
Proof.
  intros H Hn Hb. unfold ObjectInfoFromLiberalString. rewrite (strip_open t h _ b H Hb).
  change (":" ++ N_text n ++ ":" ++ String (ToChar ty) rest) with
    (String ":" (N_text n ++ String ":" (String (ToChar ty) rest))).
  rewrite getline_go_token by (apply hex_no_colon; exact (proj2 H)).
  rewrite getline_go_token by apply N_text_no_colon.
  rewrite size_text by exact Hn.
  assert (E : first_char (fst (getline_go "]" (String (ToChar ty) rest))) = ToChar ty).
  { cbn [getline_go]. replace (Ascii.eqb (ToChar ty) "]") with false by (destruct ty; reflexivity).
    destruct (getline_go "]" rest). reflexivity. }
  rewrite E, FromChar_ToChar, create_ok by exact H. reflexivity.
Qed.

Lemma liberal_no_size t b h ty rest : hash_ok t h -> b = "" \/ b = "[" ->
  ObjectInfoFromLiberalString t (b ++ h ++ "::" ++ String (ToChar ty) rest) =
  Some (mkInfo (mkDigest h (IsTreeAllowed t && IsTreeObject ty) 0) ty false).
Proof.
  intros H Hb. unfold ObjectInfoFromLiberalString. rewrite (strip_open t h _ b H Hb).
  change ("::" ++ String (ToChar ty) rest) with (String ":" (String ":" (String (ToChar ty) rest))).
  rewrite getline_go_token by (apply hex_no_colon; exact (proj2 H)).
  change (getline_go ":" (String ":" (String (ToChar ty) rest))) with ("", Some (String (ToChar ty) rest)).
  cbv iota.
  assert (E : first_char (fst (getline_go "]" (String (ToChar ty) rest))) = ToChar ty).
  { cbn [getline_go]. replace (Ascii.eqb (ToChar ty) "]") with false by (destruct ty; reflexivity).
    destruct (getline_go "]" rest). reflexivity. }
  rewrite E, FromChar_ToChar, create_ok by exact H. reflexivity.
Qed.

Lemma liberal_no_type t b h n : hash_ok t h -> (n < 2 ^ 63)%N -> b = "" \/ b = "[" ->
  ObjectInfoFromLiberalString t (b ++ h ++ ":" ++ N_text n) =
  Some (mkInfo (mkDigest h false n) File false).
Proof.
  intros H Hn Hb. unfold ObjectInfoFromLiberalString. rewrite (strip_open t h _ b H Hb).
  change (":" ++ N_text n) with (String ":" (N_text n)).
  rewrite getline_go_token by (apply hex_no_colon; exact (proj2 H)).
  rewrite getline_go_end by apply N_text_no_colon.
  rewrite size_text by exact Hn. cbn [first_char].
  change (FromChar "f") with File. rewrite create_ok by exact H.
  cbn [IsTreeObject]. now rewrite andb_false_r.
Qed.

Lemma liberal_hash_only t b h : hash_ok t h -> b = "" \/ b = "[" ->
  ObjectInfoFromLiberalString t (b ++ h) = Some (mkInfo (mkDigest h false 0) File false).
Proof.
  intros H Hb. unfold ObjectInfoFromLiberalString.
  replace (b ++ h) with (b ++ h ++ "") by (now rewrite app_str_nil_r).
  rewrite (strip_open t h _ b H Hb). rewrite app_str_nil_r.
  rewrite getline_go_end by (apply hex_no_colon; exact (proj2 H)).
  cbn [first_char]. change (FromChar "f") with File. rewrite create_ok by exact H.
  cbn [IsTreeObject]. now rewrite andb_false_r.
Qed.

Lemma liberal_parsed t s i : ObjectInfoFromLiberalString t s = Some i ->
  info_ok t i /\ i_failed i = false /\
  exists b rest, (b = "" \/ b = "[") /\ (rest = "" \/ exists r, rest = String ":" r) /\
    s = (b ++ d_hash (i_digest i) ++ rest)%string.
Proof.
  unfold ObjectInfoFromLiberalString.
  set (s1 := match s with String c r => if Ascii.eqb c "[" then r else s | "" => "" end).
  assert (Hs : exists b, (b = "" \/ b = "[") /\ s = (b ++ s1)%string).
  { unfold s1. destruct s as [|c r]; [exists ""; auto|].
    destruct (Ascii.eqb_spec c "[") as [->|]; [exists "["; auto|exists ""; auto]. }
  clearbody s1.
  destruct (getline_go ":" s1) as [id st1] eqn:G1.
  destruct (match st1 with Some r => getline_go ":" r | None => ("", None) end) as [size_str st2] eqn:G2.
  cbv zeta.
  set (size := match size_str with "" => 0%N | _ => atol_size size_str end).
  set (ot := FromChar _).
  assert (B : (size < 2 ^ 64)%N).
  { unfold size. destruct size_str; [reflexivity|apply atol_bound]. }
  destruct (create_digest t id size (IsTreeObject ot)) as [d|] eqn:D; [|discriminate].
  intro E. injection E as <-.
  destruct (create_digest_ok t id size ot d B D) as (H1 & H2 & H3).
  split; [exact H1|]. split; [reflexivity|]. cbn [i_digest]. rewrite H2.
  destruct Hs as (b & Hb & ->). apply getline_go_split in G1. destruct G1 as [_ Es]. rewrite Es.
  exists b, (match st1 with Some r => String ":" r | None => "" end).
  split; [exact Hb|]. split; [|reflexivity].
  destruct st1; [right; eexists; reflexivity|now left].
Qed.

Lemma liberal_accepts t b h rest : hash_ok t h -> b = "" \/ b = "[" ->
  rest = "" \/ (exists r, rest = String ":" r) ->
  exists i, ObjectInfoFromLiberalString t (b ++ h ++ rest) = Some i /\ d_hash (i_digest i) = h.
Proof.
  intros H Hb [->|[r ->]].
  - rewrite app_str_nil_r. rewrite liberal_hash_only by assumption. eexists. split; reflexivity.
  - unfold ObjectInfoFromLiberalString. rewrite (strip_open t h _ b H Hb).
    rewrite getline_go_token by (apply hex_no_colon; exact (proj2 H)).
    destruct (getline_go ":" r) as [size_str st2]. cbv zeta.
    rewrite create_ok by exact H. eexists. split; reflexivity.
Qed.
