(** Addresses, properties and dispatch lists: C141. *)
From Coq Require Import String Ascii List Bool NArith DecimalString Lia.
From Verif Require Import Common.Strs Hex.Model Expr.Json Expr.JsonSpec Expr.DumpProofs.
From Verif Require Import Describe.Model Describe.Spec Describe.Proofs Describe.Liberal Rules.Model Remote.Address.
Import ListNotations.
Local Open Scope string_scope.
Local Open Scope list_scope.

Lemma stoi_text n r : (match r with "" => True | String c _ => ddigit c = None end) ->
  stoi (N_text n ++ r) = if (n <? 2 ^ 31)%N then Int false n else OutOfRange.
Proof.
  intro Hr. rewrite N_text_empty. unfold stoi.
  destruct (digit_no_space (N.to_uint n) (N_uint_nonnil n)) as [SK (c & t & E & E1 & E2)].
  assert (SK' : skip_space (NilEmpty.string_of_uint (N.to_uint n) ++ r) =
                (NilEmpty.string_of_uint (N.to_uint n) ++ r)%string).
  { rewrite E in SK |- *. cbn [skip_space append] in SK |- *. destruct (isspace c) eqn:Es; [|reflexivity].
    exfalso. assert (L : forall s, String.length (skip_space s) <= String.length s).
    { induction s as [|x s IH]; cbn; [lia|]. destruct (isspace x); cbn; lia. }
    pose proof (L t) as Lt. rewrite SK in Lt. cbn in Lt. lia. }
  rewrite SK'. 
  assert (Q : match (NilEmpty.string_of_uint (N.to_uint n) ++ r)%string with
     | String c r0 => if Ascii.eqb c "+" then (false, r0) else if Ascii.eqb c "-" then (true, r0)
                      else (false, (NilEmpty.string_of_uint (N.to_uint n) ++ r)%string)
     | EmptyString => (false, (NilEmpty.string_of_uint (N.to_uint n) ++ r)%string)
     end = (false, (NilEmpty.string_of_uint (N.to_uint n) ++ r)%string)).
  { rewrite E. cbn [append]. now rewrite E1, E2. }
  rewrite Q.
  rewrite (digits10_uint (N.to_uint n) 0 r false Hr (or_intror (N_uint_nonnil n))).
  rewrite dval_zero, DecimalN.Unsigned.of_to. reflexivity.
Qed.

Lemma N_text_nonempty n : exists c t, N_text n = String c t.
Proof.
  rewrite N_text_empty. destruct (digit_no_space (N.to_uint n) (N_uint_nonnil n)) as [_ (c & t & E & _)].
  now exists c, t.
Qed.

(** What becomes of a host and a number: accepted are the numbers of ports. *)
Theorem C141_numbers host n :
  host <> "" -> no_char ":" host ->
  ParseAddress (host ++ ":" ++ N_text n) =
  if (n <? 65536)%N then Value (mkAddress host n)
  else if (n <? 2147483648)%N then Refused else Terminated.
Proof.
  intros NE NC. unfold ParseAddress. change (":" ++ N_text n)%string with (String ":" (N_text n)).
  rewrite getline_token by exact NC.
  destruct (N_text_nonempty n) as (c & t & E).
  assert (G : getline ":" (Some (N_text n)) = Some (N_text n, None)).
  { unfold getline. rewrite E at 1. now rewrite getline_go_end by apply N_text_no_colon. }
  rewrite G. unfold ParsePort.
  pose proof (stoi_text n "" Logic.I) as S0. rewrite app_str_nil_r in S0. rewrite S0.
  change (2 ^ 31)%N with 2147483648%N.
  destruct (N.ltb_spec n 65536).
  - destruct (N.ltb_spec n 2147483648); [|lia]. unfold ParsePortNumber. cbn [negb orb andb].
    destruct (N.leb_spec n 65535); [|lia]. destruct host; [congruence|reflexivity].
  - destruct (N.ltb_spec n 2147483648); [|reflexivity]. unfold ParsePortNumber. cbn [negb orb andb].
    destruct (N.leb_spec n 65535); [lia|reflexivity].
Qed.
Print Assumptions C141_numbers.

(** Addresses as printed are read as the address they were printed for. *)
Theorem C141_printed a :
  a_host a <> "" -> no_char ":" (a_host a) -> (a_port a < 65536)%N ->
  ParseAddress (address_text a) = Value a.
Proof.
  intros NE NC L. unfold address_text. rewrite C141_numbers by assumption.
  destruct (N.ltb_spec (a_port a) 65536); [|lia]. destruct a. reflexivity.
Qed.
Print Assumptions C141_printed.

(** What is accepted starts with the host and a colon; the port is in range.  Missing: nothing but the
    number follows. *)
Theorem C141_accepted_partial s a :
  ParseAddress s = Value a ->
  a_host a <> "" /\ no_char ":" (a_host a) /\ (a_port a < 65536)%N /\
  exists port rest, s = (a_host a ++ ":" ++ port ++ rest)%string /\ no_char ":" port /\
    (rest = "" \/ exists r, rest = String ":" r) /\
    exists neg, stoi port = Int neg (a_port a) /\ (neg = true -> a_port a = 0%N).
Proof.
  unfold ParseAddress, getline. destruct s as [|c s']; [discriminate|]. set (s := String c s'). clearbody s.
  destruct (getline_go ":" s) as [host st] eqn:G. destruct (getline_go_split ":" s host st G) as [H1 H2].
  destruct st as [r|]; [|discriminate]. destruct r as [|c' r']; [discriminate|].
  set (r := String c' r') in *. clearbody r.
  destruct (getline_go ":" r) as [port st'] eqn:G'. destruct (getline_go_split ":" r port st' G') as [H3 H4].
  unfold ParsePort. destruct (stoi port) as [neg n| |] eqn:S0; try discriminate.
  unfold ParsePortNumber. destruct ((negb neg || (n =? 0)%N) && (n <=? 65535)%N)%bool eqn:B; [|discriminate].
  apply andb_true_iff in B. destruct B as [B1 B2]. apply N.leb_le in B2.
  destruct host as [|hc ht]; [discriminate|]. intros [= <-]. cbn [a_host a_port].
  split; [discriminate|]. split; [exact H1|]. split; [lia|].
  exists port, (match st' with Some r0 => String ":" r0 | None => "" end).
  split; [now rewrite H2, H4 at 1|]. split; [exact H3|].
  split; [destruct st' as [r0|]; [right; now exists r0|now left]|].
  exists neg. split; [exact S0|]. intros ->. cbn [negb orb] in B1. now apply N.eqb_eq.
Qed.
Print Assumptions C141_accepted_partial.

(** Text that is no number, and further parts, are accepted behind the number. *)
Theorem C141_nothing_else_refuted :
  exists s1 s2 a, s1 <> s2 /\ ParseAddress s1 = Value a /\ ParseAddress s2 = Value a /\
    s1 <> address_text a /\ s2 <> address_text a.
Proof.
  exists "host:80:8980", "host: 80 million", (mkAddress "host" 80).
  repeat split; try (vm_compute; reflexivity); vm_compute; discriminate.
Qed.
Print Assumptions C141_nothing_else_refuted.

(** Bad addresses are reported: not so, some end the program. *)
Theorem C141_reported_refuted : forall host n,
  host <> "" -> no_char ":" host -> (2147483648 <= n)%N ->
  ParseAddress (host ++ ":" ++ N_text n) = Terminated.
Proof.
  intros host n NE NC L. rewrite C141_numbers by assumption.
  destruct (N.ltb_spec n 65536); [lia|]. destruct (N.ltb_spec n 2147483648); [lia|reflexivity].
Qed.
Print Assumptions C141_reported_refuted.

(** Properties: the text before the first colon is the key, all behind it the value.  Missing: values
    that are empty, which are refused, or have several lines, of which only the first is taken. *)
Theorem C141_property_partial key val :
  no_char ":" key -> no_char newline val -> val <> "" ->
  ParseProperty (key ++ ":" ++ val) = Some (key, val).
Proof.
  intros K V NE. unfold ParseProperty. change (":" ++ val)%string with (String ":" val).
  rewrite getline_token by exact K.
  assert (G : getline newline (Some val) = Some (val, None)).
  { unfold getline. destruct val as [|c t]; [congruence|]. now rewrite getline_go_end by exact V. }
  now rewrite G.
Qed.
Print Assumptions C141_property_partial.

Theorem C141_property_refuted :
  ParseProperty "key:" = None /\
  (forall key line1 line2, no_char ":" key -> no_char newline line1 -> line1 <> "" ->
     ParseProperty (key ++ ":" ++ line1 ++ String newline line2) = Some (key, line1)).
Proof.
  split; [reflexivity|]. intros key l1 l2 K V NE. unfold ParseProperty.
  change (":" ++ l1 ++ String newline l2)%string with (String ":" (l1 ++ String newline l2)).
  rewrite getline_token by exact K. now rewrite getline_token by exact V.
Qed.
Print Assumptions C141_property_refuted.

(** Without a colon there is neither an address nor a property. *)
Theorem C141_no_colon s : no_char ":" s -> ParseAddress s = Refused /\ ParseProperty s = None.
Proof.
  intro N. unfold ParseAddress, ParseProperty, getline. destruct s as [|c t]; [split; reflexivity|].
  rewrite getline_go_end by exact N. split; reflexivity.
Qed.
Print Assumptions C141_no_colon.

(** A dispatch list is read exactly if it is a list of pairs of an object of strings and an address; its
    entries and their order are kept. *)
Theorem C141_dispatch dispatch l :
  ParseDispatch dispatch = Value l <->
  exists entries, dispatch = JArr entries /\
    Forall2 (fun v e => exists text,
        v = JArr [JObj (map (fun '(k, x) => (k, JStr x)) (fst e)); JStr text] /\
        ParseAddress text = Value (snd e)) entries l.
Proof.
  assert (C : forall m props, read_condition m = Some props <-> m = map (fun '(k, x) => (k, JStr x)) props).
  { induction m as [|[k v] m IH]; intros props; cbn [read_condition].
    - split; [intros [= <-]; reflexivity|]. destruct props as [|[]]; [reflexivity|discriminate].
    - split.
      + destruct v; try discriminate. destruct (read_condition m) as [r|] eqn:E; [|discriminate].
        intros [= <-]. cbn [map]. now rewrite <- (proj1 (IH r) eq_refl).
      + destruct props as [|[k' x] props]; [discriminate|]. cbn [map]. intros [= -> -> Em].
        now rewrite (proj2 (IH props) Em). }
  assert (R : forall es l, read_entries es = Value l <->
     Forall2 (fun v e => exists text,
        v = JArr [JObj (map (fun '(k, x) => (k, JStr x)) (fst e)); JStr text] /\
        ParseAddress text = Value (snd e)) es l).
  { clear l. induction es as [|v es IH]; intros l.
    - cbn [read_entries]. split; [intros [= <-]; constructor|]. intro F. inversion F. reflexivity.
    - split.
      + cbn [read_entries]. destruct v as [| | |vs|]; try discriminate.
        destruct vs as [|[| | | |m] [|a [|]]]; try discriminate.
        destruct (read_condition m) as [props|] eqn:E; [|discriminate].
        destruct a as [| |text| |]; try discriminate.
        destruct (ParseAddress text) as [e| |] eqn:P; try discriminate.
        destruct (read_entries es) as [r| |]; try discriminate. intros [= <-].
        constructor; [|now apply IH]. exists text. cbn [fst snd]. split; [|exact P].
        now rewrite <- (proj1 (C m props) E).
      + intro F. inversion F as [|? [props e] ? r (text & -> & P) F']; subst. cbn [fst snd] in *.
        cbn [read_entries]. rewrite (proj2 (C _ props) eq_refl), P. now rewrite (proj2 (IH r) F'). }
  split.
  - destruct dispatch as [| | |es|]; try discriminate. cbn [ParseDispatch]. intro E. exists es.
    split; [reflexivity|now apply R].
  - intros (es & -> & F). cbn [ParseDispatch]. now apply R.
Qed.
Print Assumptions C141_dispatch.

(** Dispatch lists with such addresses end the program as well, whatever follows. *)
Theorem C141_dispatch_reported_refuted : forall before host n props after l,
  ParseDispatch (JArr before) = Value l -> host <> "" -> no_char ":" host -> (2147483648 <= n)%N ->
  ParseDispatch (JArr (before ++ JArr [JObj (map (fun '(k, x) => (k, JStr x)) props);
                                       JStr (host ++ ":" ++ N_text n)] :: after)) = Terminated.
Proof.
  intros before host n props after l E NE NC L. cbn [ParseDispatch] in *.
  assert (C : read_condition (map (fun '(k, x) => (k, JStr x)) props) = Some props).
  { induction props as [|[k x] props IH]; [reflexivity|]. cbn [map read_condition]. now rewrite IH. }
  revert l E. induction before as [|v vs IH]; intros l E.
  - cbn [app read_entries]. now rewrite C, C141_reported_refuted by assumption.
  - cbn [app read_entries] in *. destruct v as [| | |es|]; try discriminate.
    destruct es as [|[| | | |m] [|a [|]]]; try discriminate.
    destruct (read_condition m); [|discriminate]. destruct a as [| |text| |]; try discriminate.
    destruct (ParseAddress text); try discriminate.
    destruct (read_entries vs) as [r| |]; try discriminate. now rewrite (IH r eq_refl).
Qed.
Print Assumptions C141_dispatch_reported_refuted.

Example C141_nonvacuous :
  ParseAddress "build.example:8980" = Value (mkAddress "build.example" 8980) /\
  ParseAddress "build.example:65536" = Refused /\
  ParseAddress "build.example:99999999999" = Terminated /\
  ParseAddress "[::1]:8980" = Refused /\
  ParseProperty "image:registry:5000/x" = Some ("image", "registry:5000/x") /\
  ParseDispatch (JArr [JArr [JObj [("arch", JStr "arm")]; JStr "arm.example:80"]]) =
    Value [([("arch", "arm")], mkAddress "arm.example" 80)].
Proof. repeat split; vm_compute; reflexivity. Qed.
