From Coq Require Import String Ascii Arith NArith List Bool Lia.
From Verif Require Import Common.Strs Hex.Model Hex.Spec.
Import ListNotations.
Local Open Scope string_scope.
Local Arguments N.mul : simpl never.
Local Arguments N.add : simpl never.

Lemma xdigit_value c n : digit_value c n -> n < 16 /\ xdigit c = Some (N.of_nat n).
Proof.
  unfold digit_value.
  do 16 (destruct n as [|n]; [intros [H|H]; cbn in H; inversion H; subst; (split; [lia|reflexivity])|]).
  intros [H|H]; cbn in H; discriminate.
Qed.

Lemma xdigit_inv c v : xdigit c = Some v -> digit_value c (N.to_nat v).
Proof.
  destruct c as [b0 b1 b2 b3 b4 b5 b6 b7].
  destruct b0, b1, b2, b3, b4, b5, b6, b7; vm_compute; intros H; try discriminate;
    inversion H; subst; vm_compute; auto.
Qed.

(** What [stoul16] does on two hexadecimal digits. *)
Lemma stoul16_two h l vh vl :
  xdigit h = Some vh -> xdigit l = Some vl ->
  stoul16 (String h (String l "")) = Some (16 * vh + vl)%N.
Proof.
  intros Hh Hl.
  assert (forall c v, xdigit c = Some v ->
     isspace c = false /\ Ascii.eqb c "+" = false /\ Ascii.eqb c "-" = false /\
     Ascii.eqb c "x" = false /\ Ascii.eqb c "X" = false) as K.
  { intros c v. destruct c as [b0 b1 b2 b3 b4 b5 b6 b7].
    destruct b0, b1, b2, b3, b4, b5, b6, b7; vm_compute; intros H; try discriminate; repeat split. }
  destruct (K _ _ Hh) as (S1 & P1 & M1 & _ & _).
  destruct (K _ _ Hl) as (_ & _ & _ & X1 & X2).
  unfold stoul16. cbn [skip_space]. rewrite S1. cbn. rewrite P1, M1, X1, X2.
  cbn. rewrite andb_false_r. cbn. rewrite Hh, Hl. cbn. f_equal. lia.
Qed.

Lemma xdigit_lt c v : xdigit c = Some v -> (v < 16)%N.
Proof. intros H. apply xdigit_inv in H. apply xdigit_value in H. lia. Qed.

Lemma hex_pair_ok b :
  xdigit (hex_char (N_of_ascii b / 16)) = Some (N_of_ascii b / 16)%N /\
  xdigit (hex_char (N_of_ascii b mod 16)) = Some (N_of_ascii b mod 16)%N.
Proof.
  destruct b as [b0 b1 b2 b3 b4 b5 b6 b7].
  destruct b0, b1, b2, b3, b4, b5, b6, b7; vm_compute; split; reflexivity.
Qed.

Lemma hex_decode_encode bs : FromHexString (ToHexString bs) = Some bs.
Proof.
  induction bs as [|b bs IH]; [reflexivity|].
  cbn [ToHexString]. destruct (hex_pair_ok b) as [H1 H2].
  cbn [FromHexString]. rewrite (stoul16_two _ _ _ _ H1 H2), IH.
  rewrite <- N.div_mod by discriminate.
  rewrite N.mod_small, ascii_N_embedding; [reflexivity|].
  apply N_ascii_bounded.
Qed.

Lemma hex_encode_injective a b : ToHexString a = ToHexString b -> a = b.
Proof.
  intros H. pose proof (hex_decode_encode a) as Ha. rewrite H, hex_decode_encode in Ha. congruence.
Qed.

Lemma hex_char_lower n : (n < 16)%N -> is_lower_hex (hex_char n).
Proof.
  intros H. exists (N.to_nat n).
  rewrite <- (N2Nat.id n) in H |- *. set (m := N.to_nat n) in *. clearbody m. rewrite Nat2N.id.
  do 16 (destruct m as [|m]; [reflexivity|]). exfalso. lia.
Qed.

Lemma hex_encode_shape bs :
  String.length (ToHexString bs) = 2 * String.length bs /\
  Forall is_lower_hex (list_ascii_of_string (ToHexString bs)).
Proof.
  induction bs as [|b bs [IH1 IH2]]; cbn [ToHexString String.length list_ascii_of_string].
  - split; [reflexivity|constructor].
  - split; [lia|].
    pose proof (N_ascii_bounded b) as B.
    repeat constructor; try assumption; apply hex_char_lower.
    + apply N.div_lt_upper_bound; lia.
    + apply N.mod_lt. lia.
Qed.

Lemma hex_decode_spells s bs : spells s bs -> FromHexString s = Some bs.
Proof.
  induction 1 as [|h l hi lo s bs Hh Hl Hs IH]; [reflexivity|].
  apply xdigit_value in Hh. apply xdigit_value in Hl.
  destruct Hh as [B1 E1], Hl as [B2 E2].
  cbn [FromHexString]. rewrite (stoul16_two _ _ _ _ E1 E2), IH.
  do 2 f_equal. unfold ascii_of_nat.
  replace (N.of_nat (16 * hi + lo)) with (16 * N.of_nat hi + N.of_nat lo)%N by lia.
  rewrite N.mod_small by lia. reflexivity.
Qed.

Fixpoint two_ind (P : string -> Prop) (H0 : P "") (H1 : forall a, P (String a ""))
  (H2 : forall a b s, P s -> P (String a (String b s))) (s : string) : P s :=
  match s with
  | "" => H0
  | String a "" => H1 a
  | String a (String b r) => H2 a b r (two_ind P H0 H1 H2 r)
  end.

(** Hexadecimal strings of even length spell exactly one byte string. *)
Lemma hex_valid_spells s :
  IsHexString s = true -> Nat.Even (String.length s) -> exists bs, spells s bs.
Proof.
  induction s as [|a|a b s IH] using two_ind; intros H E.
  - exists "". constructor.
  - destruct E as [k E]. cbn in E. lia.
  - cbn [IsHexString] in H. destruct (xdigit a) as [va|] eqn:Ea; [|discriminate].
    destruct (xdigit b) as [vb|] eqn:Eb; [|discriminate].
    destruct IH as [bs Hbs]; [assumption| |].
    { destruct E as [k E]. exists (k - 1). cbn in E. lia. }
    eexists. econstructor; eauto using xdigit_inv.
Qed.

Lemma hex_decode_valid s :
  IsHexString s = true -> Nat.Even (String.length s) ->
  exists bs, FromHexString s = Some bs /\ spells s bs.
Proof.
  intros H E. destruct (hex_valid_spells s H E) as [bs Hbs]. exists bs.
  split; [now apply hex_decode_spells|assumption].
Qed.

Lemma IsHexString_iff s :
  IsHexString s = true <-> Forall (fun c => exists n, digit_value c n) (list_ascii_of_string s).
Proof.
  induction s as [|c s IH]; cbn.
  - split; [constructor|reflexivity].
  - destruct (xdigit c) as [v|] eqn:E.
    + rewrite IH. split; intros H.
      * constructor; [eexists; eapply xdigit_inv; eauto|assumption].
      * now inversion H.
    + split; [discriminate|]. intros H. inversion H as [|? ? [n Hn] _]; subst.
      apply xdigit_value in Hn. destruct Hn as [_ Hn]. congruence.
Qed.

(** [FromHexString] accepts strings that spell no byte string. *)
Lemma hex_decode_not_strict :
  exists s bs, FromHexString s = Some bs /\ IsHexString s = false /\ ~ (exists b, spells s b).
Proof.
  exists "-1", (String (ascii_of_nat 255) ""). split; [reflexivity|]. split; [reflexivity|].
  intros [b H]. inversion H as [|h l hi lo s bs Hh Hl Hs E1 E2]; subst.
  apply xdigit_value in Hh. destruct Hh as [_ Hh]. vm_compute in Hh. discriminate.
Qed.

Lemma hex_decode_odd :
  exists s bs, FromHexString s = Some bs /\ Nat.Odd (String.length s).
Proof. exists "abc", (String (ascii_of_nat 171) (String (ascii_of_nat 12) "")). split; [reflexivity|]. now exists 1. Qed.
