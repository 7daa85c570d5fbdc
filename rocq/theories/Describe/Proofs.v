From Coq Require Import String Ascii List Bool NArith ZArith SpecFloat DecimalString DecimalN DecimalFacts Lia.
From Verif Require Import Common.Strs Hex.Model Expr.Json Expr.JsonSpec Expr.DumpProofs Describe.Model Describe.Spec.
Import ListNotations.
Local Open Scope string_scope.

(** ** Digests *)

Lemma xdigit_hex c : (exists v, xdigit c = Some v) <-> hex_digit c.
Proof.
  split.
  - intros [v H]. destruct c as [[] [] [] [] [] [] [] []]; vm_compute in H; try discriminate; vm_compute; tauto.
  - intros H. unfold hex_digit in H. cbn in H.
    repeat (destruct H as [<-|H]; [eexists; vm_compute; reflexivity|]). contradiction.
Qed.

Lemma IsHexString_spec s : IsHexString s = true <-> Forall hex_digit (list_ascii_of_string s).
Proof.
  induction s as [|c r IH]; cbn; [split; auto|].
  destruct (xdigit c) eqn:E.
  - rewrite IH. split; intros H; [constructor; auto; apply xdigit_hex; eauto | now inversion H].
  - split; [discriminate|]. intros H. inversion H as [|? ? Hc]; subst.
    apply xdigit_hex in Hc. destruct Hc as [v Hv]. congruence.
Qed.

Lemma valid_input_spec t h b : valid_input t h b = true <-> hash_ok t h /\ (b = true -> t = GitSHA1).
Proof.
  unfold valid_input, hash_ok. rewrite !andb_true_iff, IsHexString_spec, Nat.eqb_eq.
  destruct t, b; cbn; intuition (try discriminate; auto).
Qed.

Lemma create_digest_ok t h n ty d : (n < 2 ^ 64)%N ->
  create_digest t h n (IsTreeObject ty) = Some d -> digest_ok t ty d /\ d_hash d = h /\ d_size d = n.
Proof.
  unfold create_digest. intros Hn. destruct (valid_input _ _ _) eqn:E; [|discriminate].
  intros H; inversion H; subst; clear H. apply valid_input_spec in E. destruct E as [E1 E2].
  unfold digest_ok; cbn [d_hash d_size d_tree]. split; [|now split].
  split; [exact E1|]. split; [exact Hn|]. split.
  - destruct t, ty; cbn; intros H; try discriminate H; auto.
  - intros [-> ->]. reflexivity.
Qed.

Lemma create_digest_same t ty d : digest_ok t ty d -> create_digest t (d_hash d) (d_size d) (IsTreeObject ty) = Some d.
Proof.
  intros (Hh & _ & Ht). unfold create_digest.
  assert (E : (IsTreeAllowed t && IsTreeObject ty)%bool = d_tree d).
  { destruct (d_tree d) eqn:E.
    - destruct (proj1 Ht eq_refl) as [-> ->]. reflexivity.
    - destruct t, ty; cbn; auto. discriminate (proj2 Ht (conj eq_refl eq_refl)). }
  rewrite E. replace (valid_input t (d_hash d) (d_tree d)) with true.
  - destruct d; reflexivity.
  - symmetry. apply valid_input_spec. split; auto. intros H. now apply Ht.
Qed.

Lemma FromChar_ToChar ty : FromChar (ToChar ty) = ty.
Proof. destruct ty; reflexivity. Qed.

(** ** Decimal numbers *)

(** Value of the digits in front of an accumulator. *)
Fixpoint dval (d : Decimal.uint) (acc : N) : N :=
  match d with
  | Decimal.Nil => acc
  | Decimal.D0 d => dval d (acc * 10 + 0)
  | Decimal.D1 d => dval d (acc * 10 + 1)
  | Decimal.D2 d => dval d (acc * 10 + 2)
  | Decimal.D3 d => dval d (acc * 10 + 3)
  | Decimal.D4 d => dval d (acc * 10 + 4)
  | Decimal.D5 d => dval d (acc * 10 + 5)
  | Decimal.D6 d => dval d (acc * 10 + 6)
  | Decimal.D7 d => dval d (acc * 10 + 7)
  | Decimal.D8 d => dval d (acc * 10 + 8)
  | Decimal.D9 d => dval d (acc * 10 + 9)
  end%N.

Lemma dval_pos d : forall p, dval d (N.pos p) = N.pos (Pos.of_uint_acc d p).
Proof.
  induction d; intros p; cbn [dval Pos.of_uint_acc]; auto;
    match goal with IH : forall p, dval ?d _ = _ |- dval ?d ?a = N.pos (Pos.of_uint_acc ?d ?q) =>
      replace a with (N.pos q) by lia; apply IH end.
Qed.

Lemma dval_zero d : dval d 0 = N.of_uint d.
Proof.
  unfold N.of_uint. induction d; cbn [dval Pos.of_uint]; auto;
    match goal with |- dval ?d ?a = N.pos (Pos.of_uint_acc ?d ?q) => exact (dval_pos d q) end.
Qed.

Lemma digits10_uint d : forall acc r seen,
  (match r with "" => True | String c _ => ddigit c = None end) ->
  (seen = true \/ d <> Decimal.Nil) ->
  digits10 (NilEmpty.string_of_uint d ++ r) acc seen = Some (dval d acc).
Proof.
  induction d; intros acc r seen Hr Hs; cbn [NilEmpty.string_of_uint append dval].
  - destruct Hs as [->|Hs]; [|congruence]. destruct r as [|c r]; cbn; auto. now rewrite Hr.
  - cbn. apply IHd; auto.
  - cbn. apply IHd; auto.
  - cbn. apply IHd; auto.
  - cbn. apply IHd; auto.
  - cbn. apply IHd; auto.
  - cbn. apply IHd; auto.
  - cbn. apply IHd; auto.
  - cbn. apply IHd; auto.
  - cbn. apply IHd; auto.
  - cbn. apply IHd; auto.
Qed.

Lemma N_text_empty n : N_text n = NilEmpty.string_of_uint (N.to_uint n).
Proof.
  unfold N_text, NilZero.string_of_uint. pose proof (N_uint_nonnil n). destruct (N.to_uint n); congruence.
Qed.

Lemma digit_no_space d : d <> Decimal.Nil ->
  skip_space (NilEmpty.string_of_uint d) = NilEmpty.string_of_uint d /\
  exists c r, NilEmpty.string_of_uint d = String c r /\ Ascii.eqb c "+" = false /\ Ascii.eqb c "-" = false.
Proof. destruct d; intros H; try congruence; cbn; split; auto; do 2 eexists; split; reflexivity || auto. Qed.

(** Printing a 64-bit number and reading it back. *)
Lemma stoul10_text n : (n < 2 ^ 64)%N -> stoul10 (N_text n) = Some n.
Proof.
  intros Hn. rewrite N_text_empty. unfold stoul10.
  destruct (digit_no_space (N.to_uint n) (N_uint_nonnil n)) as [-> (c & r & E & E1 & E2)].
  rewrite E, E1, E2, <- E.
  pose proof (digits10_uint (N.to_uint n) 0 "" false I (or_intror (N_uint_nonnil n))) as D.
  rewrite app_str_nil_r in D. rewrite D, dval_zero, DecimalN.Unsigned.of_to.
  apply N.ltb_lt in Hn. now rewrite Hn.
Qed.

Lemma stoul10_bound s n : stoul10 s = Some n -> (n < 2 ^ 64)%N.
Proof.
  unfold stoul10.
  match goal with |- context [let '(a, b) := ?x in _] => destruct x as [neg s2] end.
  destruct (digits10 s2 0 false) as [m|]; [|discriminate].
  destruct (m <? 2 ^ 64)%N eqn:E; [|discriminate]. apply N.ltb_lt in E.
  intros H. injection H as <-. destruct neg; auto. apply N.mod_lt. discriminate.
Qed.

(** ** Tokens *)
Fixpoint no_char (c : ascii) (s : string) : Prop :=
  match s with "" => True | String d r => d <> c /\ no_char c r end.

Lemma getline_go_token delim tok : forall rest, no_char delim tok ->
  getline_go delim (tok ++ String delim rest) = (tok, Some rest).
Proof.
  induction tok as [|c r IH]; intros rest H; cbn.
  - now rewrite Ascii.eqb_refl.
  - destruct H as [H1 H2]. apply Ascii.eqb_neq in H1. rewrite H1, IH; auto.
Qed.

Lemma getline_token delim tok rest : no_char delim tok ->
  getline delim (Some (tok ++ String delim rest)) = Some (tok, Some rest).
Proof.
  intros H. unfold getline. rewrite getline_go_token by auto.
  destruct tok; reflexivity.
Qed.

Lemma hex_no_colon s : Forall hex_digit (list_ascii_of_string s) -> no_char ":" s.
Proof.
  induction s as [|c r IH]; cbn; auto. intros H. inversion H as [|? ? Hc Hr]; subst. split; auto.
  intros ->. unfold hex_digit in Hc. vm_compute in Hc.
  repeat (destruct Hc as [Hc|Hc]; [discriminate Hc|]). exact Hc.
Qed.

Lemma digits_no_colon s : all_chars is_digit s = true -> no_char ":" s.
Proof.
  induction s as [|c r IH]; cbn; auto. intros H. apply andb_true_iff in H. destruct H as [H1 H2].
  split; auto. intros ->. discriminate H1.
Qed.

Lemma N_text_no_colon n : no_char ":" (N_text n).
Proof. apply digits_no_colon, uint_chars0. Qed.

(** ** Object infos *)
Lemma info_roundtrip t i : info_ok t i ->
  info_FromString t (info_ToString false i) = Some (mkInfo (i_digest i) (i_type i) false).
Proof.
  intros Hi. assert (Hi' := Hi). destruct Hi' as ((_ & Hh) & Hn & _).
  unfold info_ToString, info_FromString. cbn [append].
  change (Ascii.eqb "[" "[") with true. cbn match.
  rewrite (getline_token ":" (d_hash (i_digest i))) by now apply hex_no_colon.
  rewrite (getline_token ":" (N_text _)) by apply N_text_no_colon.
  assert (E : getline "]" (Some (String (ToChar (i_type i)) (String "]" (if i_failed i then " FAILED" else ""))))
              = Some (String (ToChar (i_type i)) "", Some (if i_failed i then " FAILED" else ""))).
  { apply (getline_token "]" (String (ToChar (i_type i)) "")). cbn. split; auto. destruct (i_type i); discriminate. }
  rewrite E, stoul10_text by auto. cbn [first_char]. rewrite FromChar_ToChar.
  now rewrite create_digest_same.
Qed.

Lemma info_parsed_ok t s i : info_FromString t s = Some i -> info_ok t i /\ i_failed i = false.
Proof.
  unfold info_FromString. destruct s as [|c rest]; [discriminate|].
  destruct (Ascii.eqb c "["); [|discriminate].
  destruct (getline ":" (Some rest)) as [[id st1]|]; [|discriminate].
  destruct (getline ":" st1) as [[sz st2]|]; [|discriminate].
  destruct (getline "]" st2) as [[ty ?]|]; [|discriminate].
  destruct (stoul10 sz) as [n|] eqn:E; [|discriminate].
  destruct (create_digest _ _ _ _) as [d|] eqn:D; [|discriminate].
  intros H; injection H as <-. split; auto. unfold info_ok; cbn [i_type i_digest].
  apply stoul10_bound in E. now apply (create_digest_ok _ _ _ _ _ E D).
Qed.

Lemma info_text_inj t a b : info_ok t a -> info_ok t b ->
  info_ToString false a = info_ToString false b -> a = b.
Proof.
  intros Ha Hb E. pose proof (info_roundtrip t a Ha) as RA. pose proof (info_roundtrip t b Hb) as RB.
  rewrite E, RB in RA. injection RA as E1 E2.
  destruct a as [da ta fa], b as [db tb fb]. cbn [i_digest i_type] in *. subst.
  f_equal. unfold info_ToString in E. cbn [i_digest i_type i_failed] in E.
  cbn [append] in E. injection E as E. apply app_str_inv_head in E. cbn [append] in E. injection E as E.
  apply app_str_inv_head in E. cbn [append] in E. injection E as E. destruct fa, fb; auto; discriminate E.
Qed.

(** ** Artifact descriptions *)
Section Art.
Variable u64_of_num : num -> N.

Lemma art_roundtrip t a : artifact_ok t a -> art_FromJson u64_of_num t (art_ToJson a) = Some (forget_repo a).
Proof.
  destruct a as [p r|d ty r|i p|i|i]; cbn [artifact_ok forget_repo]; intros Hok; try reflexivity.
  unfold art_FromJson, art_ToJson, extract_string, extract_size, jfind, as_string, as_size.
  cbn [alookup String.eqb Ascii.eqb Bool.eqb].
  unfold create_known, extract_string, extract_size, jfind, as_string, as_size.
  cbn [alookup String.eqb Ascii.eqb Bool.eqb].
  rewrite FromChar_ToChar.
  replace (Z.to_N (Z.of_N (d_size d) mod 2 ^ 64)) with (d_size d).
  - now rewrite create_digest_same.
  - destruct Hok as (_ & Hn & _). rewrite Z.mod_small; [now rewrite N2Z.id|].
    split; [apply N2Z.is_nonneg|]. change (2 ^ 64)%Z with (Z.of_N (2 ^ 64)%N). now apply N2Z.inj_lt.
Qed.

Hypothesis u64_range : forall n, (u64_of_num n < 2 ^ 64)%N.

Lemma as_size_bound j n : as_size u64_of_num j = Some n -> (n < 2 ^ 64)%N.
Proof.
  destruct j as [| |z|x| | |]; try discriminate; unfold as_size; intros H; injection H as <-; auto.
  assert (B := Z.mod_pos_bound z (2 ^ 64) eq_refl).
  apply N2Z.inj_lt. rewrite Z2N.id by apply B. exact (proj2 B).
Qed.

Lemma art_parsed_ok t j a : art_FromJson u64_of_num t j = Some a -> artifact_ok t a /\ forget_repo a = a.
Proof.
  unfold art_FromJson. destruct (extract_string j "type") as [ty|]; [|discriminate].
  destruct (jfind j "data") as [data|]; [|discriminate].
  destruct (String.eqb ty "LOCAL").
  { unfold create_local. destruct (extract_string data "path"), (extract_string data "repository"); try discriminate.
    intros H; injection H as <-. now split. }
  destruct (String.eqb ty "KNOWN").
  { unfold create_known. destruct (extract_string data "id") as [id|]; [|discriminate].
    destruct (extract_size _ data "size") as [n|] eqn:En; [|discriminate].
    destruct (extract_string data "file_type") as [[|c [|? ?]]|]; try discriminate.
    destruct (create_digest _ _ _ _) as [d|] eqn:D; [|discriminate].
    intros H; injection H as <-. split; auto. cbn.
    assert (Hn : (n < 2 ^ 64)%N).
    { unfold extract_size in En. destruct (jfind data "size"); [|discriminate]. now apply as_size_bound in En. }
    now apply (create_digest_ok _ _ _ _ _ Hn D). }
  destruct (String.eqb ty "ACTION").
  { unfold create_action. destruct (extract_string data "id"), (extract_string data "path"); try discriminate.
    intros H; injection H as <-. now split. }
  destruct (String.eqb ty "TREE").
  { unfold create_tree. destruct (extract_string data "id"); try discriminate.
    intros H; injection H as <-. now split. }
  destruct (String.eqb ty "TREE_OVERLAY"); [|discriminate].
  unfold create_tree_overlay. destruct (extract_string data "id"); try discriminate.
  intros H; injection H as <-. now split.
Qed.
End Art.

Lemma art_json_inj t a b : artifact_ok t a -> artifact_ok t b -> art_ToJson a = art_ToJson b ->
  forget_repo a = forget_repo b.
Proof.
  intros Ha Hb E. pose proof (art_roundtrip (fun _ => 0%N) t a Ha) as RA.
  rewrite E, (art_roundtrip (fun _ => 0%N) t b Hb) in RA. now injection RA as ->.
Qed.

Lemma art_json_forget a : art_ToJson (forget_repo a) = art_ToJson a.
Proof. destruct a; reflexivity. Qed.

Lemma art_json_ok a : json_ok (art_ToJson a).
Proof. destruct a; cbn; tauto. Qed.

Lemma art_same_id ndump H t a b : number_text ndump -> artifact_ok t a -> artifact_ok t b ->
  art_id ndump H a = art_id ndump H b ->
  forget_repo a = forget_repo b \/
  (dump ndump (art_ToJson a) <> dump ndump (art_ToJson b) /\
   H (dump ndump (art_ToJson a)) = H (dump ndump (art_ToJson b))).
Proof.
  intros Hn Ha Hb E. unfold art_id in E.
  destruct (string_dec (dump ndump (art_ToJson a)) (dump ndump (art_ToJson b))) as [D|D]; [left|right; auto].
  apply (art_json_inj t); auto. eapply dump_injective; eauto using art_json_ok.
Qed.

(** ** Action descriptions *)

Lemma all_some_map {A B} (f : A -> option B) (g : A -> B) l :
  Forall (fun x => f x = Some (g x)) l -> all_some (map f l) = Some (map g l).
Proof. induction 1; cbn; auto. now rewrite H, IHForall. Qed.

Lemma as_strings_json l : as_strings (strings_json l) = Some l.
Proof. unfold as_strings, strings_json. rewrite map_map. rewrite (all_some_map _ id), map_id; auto. now apply Forall_forall. Qed.

Lemma as_string_map_json l : as_string_map (string_map_json l) = Some l.
Proof.
  unfold as_string_map, string_map_json. rewrite map_map. rewrite (all_some_map _ id), map_id; auto.
  apply Forall_forall. intros [k v] _. reflexivity.
Qed.

Lemma SFeqb_one x : SFeqb x one = true -> x = one.
Proof.
  destruct x as [s|s| |s m e]; try (destruct s; discriminate); try discriminate.
  unfold SFeqb, SFcompare, one. destruct s; [discriminate|].
  destruct (Z.compare_spec e (-52)) as [->|?|?]; try discriminate.
  destruct (Pos.compare_cont Eq m 4503599627370496) eqn:E; try discriminate. intros _.
  apply Pos.compare_eq in E. now subst.
Qed.

Lemma set_if_lookup c k v m x : alookup x (set_if c k v m) = if (c && String.eqb x k)%bool then Some v else alookup x m.
Proof.
  unfold set_if. destruct c; cbn [andb]; auto. rewrite ainsert_lookup. reflexivity.
Qed.

Section Action.
Variable u64_of_num : num -> N.

Lemma is_nil_spec {A} (l : list A) : is_nil l = true <-> l = [].
Proof. destruct l; cbn; split; congruence. Qed.

Lemma find_field a x : jfind (action_ToJson a) x =
  if (negb (is_nil (a_properties a)) && String.eqb x "execution properties")%bool then Some (string_map_json (a_properties a))
  else if (negb (String.eqb (a_cwd a) "") && String.eqb x "cwd")%bool then Some (JStr (a_cwd a))
  else if (num_neqb (a_timeout a) one && String.eqb x "timeout scaling")%bool then Some (JNum (a_timeout a))
  else if (a_no_cache a && String.eqb x "no_cache")%bool then Some (JBool true)
  else if ((match a_may_fail a with Some _ => true | None => false end) && String.eqb x "may_fail")%bool
       then Some (match a_may_fail a with Some s => JStr s | None => JNull end)
  else if (negb (is_nil (a_env a)) && String.eqb x "env")%bool then Some (string_map_json (a_env a))
  else if (negb (is_nil (a_inputs a)) && String.eqb x "input")%bool then Some (inputs_json (a_inputs a))
  else if (negb (is_nil (a_output_dirs a)) && String.eqb x "output_dirs")%bool then Some (strings_json (a_output_dirs a))
  else if (negb (is_nil (a_output a)) && String.eqb x "output")%bool then Some (strings_json (a_output a))
  else if String.eqb x "command" then Some (strings_json (a_command a)) else None.
Proof. unfold action_ToJson, jfind. rewrite !set_if_lookup. reflexivity. Qed.

Ltac field_tac := rewrite find_field; cbn [String.eqb Ascii.eqb Bool.eqb andb]; rewrite ?andb_false_r, ?andb_true_r.

Lemma field_command a : jfind (action_ToJson a) "command" = Some (strings_json (a_command a)).
Proof. now field_tac. Qed.
Lemma field_output a : jfind (action_ToJson a) "output" = if is_nil (a_output a) then None else Some (strings_json (a_output a)).
Proof. field_tac. now destruct (is_nil _). Qed.
Lemma field_output_dirs a : jfind (action_ToJson a) "output_dirs" = if is_nil (a_output_dirs a) then None else Some (strings_json (a_output_dirs a)).
Proof. field_tac. now destruct (is_nil _). Qed.
Lemma field_env a : jfind (action_ToJson a) "env" = if is_nil (a_env a) then None else Some (string_map_json (a_env a)).
Proof. field_tac. now destruct (is_nil _). Qed.
Lemma field_input a : jfind (action_ToJson a) "input" = if is_nil (a_inputs a) then None else Some (inputs_json (a_inputs a)).
Proof. field_tac. now destruct (is_nil _). Qed.
Lemma field_props a : jfind (action_ToJson a) "execution properties" = if is_nil (a_properties a) then None else Some (string_map_json (a_properties a)).
Proof. field_tac. now destruct (is_nil _). Qed.
Lemma field_cwd a : jfind (action_ToJson a) "cwd" = if String.eqb (a_cwd a) "" then None else Some (JStr (a_cwd a)).
Proof. field_tac. now destruct (String.eqb _ _). Qed.
Lemma field_timeout a : jfind (action_ToJson a) "timeout scaling" = if SFeqb (a_timeout a) one then None else Some (JNum (a_timeout a)).
Proof. field_tac. unfold num_neqb. now destruct (SFeqb _ _). Qed.
Lemma field_no_cache a : jfind (action_ToJson a) "no_cache" = if a_no_cache a then Some (JBool true) else None.
Proof. field_tac. now destruct (a_no_cache a). Qed.
Lemma field_may_fail a : jfind (action_ToJson a) "may_fail" = option_map JStr (a_may_fail a).
Proof. field_tac. now destruct (a_may_fail a). Qed.

Lemma extract_list k a l : jfind (action_ToJson a) k = (if is_nil l then None else Some (strings_json l)) ->
  or_empty (extract_strings (action_ToJson a) k) = l.
Proof.
  intros E. unfold extract_strings. rewrite E. destruct (is_nil l) eqn:N.
  - apply is_nil_spec in N. now subst.
  - now rewrite as_strings_json.
Qed.

Lemma optional_map k a l : jfind (action_ToJson a) k = (if is_nil l then None else Some (string_map_json l)) ->
  optional_object (action_ToJson a) k = string_map_json l.
Proof.
  intros E. unfold optional_object. rewrite E. destruct (is_nil l) eqn:N; auto.
  apply is_nil_spec in N. now subst.
Qed.

Lemma optional_inputs a : optional_object (action_ToJson a) "input" = inputs_json (a_inputs a).
Proof.
  unfold optional_object. rewrite field_input. destruct (is_nil (a_inputs a)) eqn:N; auto.
  apply is_nil_spec in N. now rewrite N.
Qed.

Lemma action_roundtrip t a : action_ok t a ->
  action_FromJson u64_of_num t (a_id a) (action_ToJson a) = Some (forget_repos a).
Proof.
  intros (Hc & Ho & _ & _ & _ & Hi). unfold action_FromJson.
  rewrite (extract_list "output" a (a_output a)) by apply field_output.
  rewrite (extract_list "output_dirs" a (a_output_dirs a)) by apply field_output_dirs.
  replace (or_empty (extract_strings (action_ToJson a) "command")) with (a_command a)
    by (unfold extract_strings; now rewrite field_command, as_strings_json).
  replace (is_nil (a_output a) && is_nil (a_output_dirs a))%bool with false
    by (destruct Ho; destruct (a_output a), (a_output_dirs a); cbn; congruence).
  replace (is_nil (a_command a)) with false by (destruct (a_command a); cbn; congruence).
  rewrite optional_inputs.
  rewrite (optional_map "env" a (a_env a)) by apply field_env.
  rewrite (optional_map "execution properties" a (a_properties a)) by apply field_props.
  rewrite field_cwd, field_may_fail, field_no_cache, field_timeout.
  replace (match (if String.eqb (a_cwd a) "" then None else Some (JStr (a_cwd a))) with
           | Some v => as_string v | None => Some "" end) with (Some (a_cwd a))
    by (destruct (String.eqb_spec (a_cwd a) ""); [now rewrite e|reflexivity]).
  cbn [obind]. unfold inputs_json at 1. unfold string_map_json at 1.
  rewrite map_map. rewrite (all_some_map _ (fun p => match p with (k, v) => (k, forget_repo v) end)).
  2:{ eapply Forall_impl; [|exact Hi]. intros [k v] Hv. cbn in Hv. cbn. now rewrite (art_roundtrip _ t). }
  cbn [obind].
  replace (match option_map JStr (a_may_fail a) with
           | Some JNull | None => Some None | Some (JStr s) => Some (Some s) | _ => None end)
    with (Some (a_may_fail a)) by now destruct (a_may_fail a).
  cbn [obind].
  replace (match (if a_no_cache a then Some (JBool true) else None) with
           | Some (JBool b) => Some b | None => Some false | _ => None end)
    with (Some (a_no_cache a)) by now destruct (a_no_cache a).
  cbn [obind].
  replace (match (if SFeqb (a_timeout a) one then None else Some (JNum (a_timeout a))) with
           | Some v => as_double v | None => Some one end) with (Some (a_timeout a)).
  2:{ destruct (SFeqb (a_timeout a) one) eqn:E; auto. now apply SFeqb_one in E; rewrite E. }
  cbn [obind]. unfold string_map_json at 1.
  change (JObj (map (fun p => match p with (k, v) => (k, JStr v) end) (a_env a))) with (string_map_json (a_env a)).
  change (JObj (map (fun p => match p with (k, v) => (k, JStr v) end) (a_properties a))) with (string_map_json (a_properties a)).
  rewrite !as_string_map_json. reflexivity.
Qed.

Lemma all_some_spec {A} (l : list (option A)) r : all_some l = Some r -> map Some r = l.
Proof.
  revert r; induction l as [|[x|] l IH]; cbn; intros r H; try discriminate.
  - now injection H as <-.
  - destruct (all_some l); [|discriminate]. injection H as <-. cbn. f_equal. now apply IH.
Qed.

(** Reading the members of an object keeps the keys. *)
Lemma all_some_entries {A B} (f : A -> option B) (m : list (string * A)) r :
  all_some (map (fun p => match p with (k, v) => option_map (fun s => (k, s)) (f v) end) m) = Some r ->
  keys r = keys m /\ Forall (fun p => exists v, In (fst p, v) m /\ f v = Some (snd p)) r.
Proof.
  revert r; induction m as [|[k v] m IH]; cbn; intros r H.
  - injection H as <-. split; auto.
  - destruct (f v) as [b|] eqn:E; cbn in H; [|discriminate].
    destruct (all_some _) as [r'|] eqn:E'; [|discriminate]. injection H as <-.
    destruct (IH r' eq_refl) as [I1 I2]. split.
    + cbn. now f_equal.
    + constructor; [exists v; auto|]. eapply Forall_impl; [|exact I2].
      intros [k' b'] (v' & ? & ?). exists v'. auto.
Qed.

Lemma sorted_keys_same {A B} (m : list (string * A)) (r : list (string * B)) :
  keys r = keys m -> sorted_keys m -> sorted_keys r.
Proof.
  revert m; induction r as [|[k v] r IH]; intros [|[k' v'] m] E S; try discriminate; [constructor|].
  cbn in E. injection E as -> E. inversion S as [|? ? S1 S2]; subst. constructor; [now apply (IH m)|].
  rewrite Forall_forall in S2 |- *. intros [k2 v2] Hin. unfold key_lt; cbn.
  assert (Hk : In k2 (keys m)) by (unfold keys; rewrite <- E; apply in_map_iff; now exists (k2, v2)).
  apply in_map_iff in Hk. destruct Hk as ([k3 v3] & Ek & Hk). cbn in Ek. subst. exact (S2 _ Hk).
Qed.

Hypothesis u64_range : forall n, (u64_of_num n < 2 ^ 64)%N.

Lemma optional_sorted desc k m : (forall v, jfind desc k = Some v -> object_sorted v) ->
  optional_object desc k = JObj m -> sorted_keys m.
Proof.
  unfold optional_object. intros Hs. destruct (jfind desc k) as [v|].
  - intros ->. exact (Hs _ eq_refl).
  - intros H; injection H as <-. constructor.
Qed.

Lemma action_parsed_ok t id desc a :
  (forall k v, jfind desc k = Some v -> object_sorted v) ->
  action_FromJson u64_of_num t id desc = Some a -> action_ok t a /\ forget_repos a = a /\ a_id a = id.
Proof.
  intros Hs. unfold action_FromJson.
  set (o := or_empty (extract_strings desc "output")).
  set (od := or_empty (extract_strings desc "output_dirs")).
  set (c := or_empty (extract_strings desc "command")).
  destruct (is_nil o && is_nil od)%bool eqn:E1; [discriminate|].
  destruct (is_nil c) eqn:E2; [discriminate|].
  destruct (match jfind desc "cwd" with Some v => _ | None => _ end) as [cwd|]; [|discriminate].
  cbn [obind].
  destruct (optional_object desc "input") as [| | | | | |input] eqn:Ei; try discriminate.
  destruct (optional_object desc "env") as [| | | | | |env] eqn:Ee; try discriminate.
  destruct (all_some _) as [inputs|] eqn:Ein; cbn [obind]; [|discriminate].
  destruct (match jfind desc "may_fail" with Some _ => _ | None => _ end) as [mf|]; cbn [obind]; [|discriminate].
  destruct (match jfind desc "no_cache" with Some _ => _ | None => _ end) as [nc|]; cbn [obind]; [|discriminate].
  destruct (match jfind desc "timeout scaling" with Some _ => _ | None => _ end) as [ts|]; cbn [obind]; [|discriminate].
  destruct (optional_object desc "execution properties") as [| | | | | |props] eqn:Ep; try discriminate.
  destruct (as_string_map (JObj env)) as [env'|] eqn:Eenv; cbn [obind]; [|discriminate].
  destruct (as_string_map (JObj props)) as [props'|] eqn:Eprops; cbn [obind]; [|discriminate].
  intros H; injection H as <-.
  apply (all_some_entries (art_FromJson u64_of_num t)) in Ein. destruct Ein as [Ki Fi].
  unfold as_string_map in Eenv, Eprops.
  apply (all_some_entries as_string) in Eenv. apply (all_some_entries as_string) in Eprops.
  apply optional_sorted in Ei; [|apply Hs]. apply optional_sorted in Ee; [|apply Hs].
  apply optional_sorted in Ep; [|apply Hs].
  assert (Fi' : Forall (fun p => artifact_ok t (snd p) /\ forget_repo (snd p) = snd p) inputs).
  { eapply Forall_impl; [|exact Fi]. intros [k v] (v' & _ & Hv). cbn [snd] in *.
    now apply (art_parsed_ok u64_of_num u64_range t v'). }
  split; [|split; [|reflexivity]].
  - unfold action_ok; cbn [a_command a_output a_output_dirs a_env a_properties a_inputs].
    split; [intros C; rewrite C in E2; discriminate|].
    split.
    { destruct o; [|left; discriminate]. destruct od; [discriminate|right; discriminate]. }
    split; [now apply (sorted_keys_same env)|]. split; [now apply (sorted_keys_same props)|].
    split; [now apply (sorted_keys_same input)|].
    eapply Forall_impl; [|exact Fi']. now intros p [? _].
  - unfold forget_repos; cbn [a_id a_output a_output_dirs a_command a_cwd a_env a_may_fail a_no_cache a_timeout a_properties a_inputs].
    f_equal. clear -Fi'. induction Fi' as [|[k v] l [_ Hv] _ IH]; auto. cbn in *. now rewrite Hv, IH.
Qed.

Lemma action_json_inj t a b : action_ok t a -> action_ok t b -> a_id a = a_id b ->
  action_ToJson a = action_ToJson b -> forget_repos a = forget_repos b.
Proof.
  intros Ha Hb E J. pose proof (action_roundtrip t a Ha) as RA.
  rewrite J, E, (action_roundtrip t b Hb) in RA. assert (RB : forall x y : action, Some x = Some y -> x = y) by congruence.
  symmetry. exact (RB _ _ RA).
Qed.
End Action.
