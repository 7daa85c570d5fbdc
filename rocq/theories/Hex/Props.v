(** C17, C41: hexadecimal codec (src/utils/cpp/hex_string.hpp). *)
From Coq Require Import String Ascii Arith NArith List Bool.
From Verif Require Import Hex.Model Hex.Spec Hex.Proofs.
Import ListNotations.
Local Open Scope string_scope.

(** C17: decoding the encoding gives back the bytes. *)
Theorem C17_hex_decode_encode : forall bs : string, FromHexString (ToHexString bs) = Some bs.
Proof. exact hex_decode_encode. Qed.
Print Assumptions C17_hex_decode_encode.

Theorem C17_hex_encode_injective : forall a b : string, ToHexString a = ToHexString b -> a = b.
Proof. exact hex_encode_injective. Qed.
Print Assumptions C17_hex_encode_injective.

Theorem C17_hex_encode_shape : forall bs : string,
  String.length (ToHexString bs) = 2 * String.length bs /\
  Forall is_lower_hex (list_ascii_of_string (ToHexString bs)).
Proof. exact hex_encode_shape. Qed.
Print Assumptions C17_hex_encode_shape.

(** Whatever [IsHexString] accepts at even length is decoded to the bytes it spells. *)
Theorem C17_hex_decode_valid : forall s : string,
  IsHexString s = true -> Nat.Even (String.length s) ->
  exists bs, FromHexString s = Some bs /\ spells s bs.
Proof. exact hex_decode_valid. Qed.
Print Assumptions C17_hex_decode_valid.

Theorem C17_is_hex_exact : forall s : string,
  IsHexString s = true <-> Forall (fun c => exists n, digit_value c n) (list_ascii_of_string s).
Proof. exact IsHexString_iff. Qed.
Print Assumptions C17_is_hex_exact.

(** C41 (full statement): [FromHexString s = Some bs -> spells s bs]. It is false of the code: [std::stoul]
    accepts signs, white space, a 0x prefix, trailing garbage and a single trailing digit. *)
Theorem C41_hex_decode_strict_refuted :
  exists s bs, FromHexString s = Some bs /\ IsHexString s = false /\ ~ (exists b, spells s b).
Proof. exact hex_decode_not_strict. Qed.
Print Assumptions C41_hex_decode_strict_refuted.

Theorem C41_hex_decode_odd_refuted :
  exists s bs, FromHexString s = Some bs /\ Nat.Odd (String.length s).
Proof. exact hex_decode_odd. Qed.
Print Assumptions C41_hex_decode_odd_refuted.

Example C17_valid_nonvacuous :
  IsHexString "00ffAb" = true /\ FromHexString "00ffAb" = Some (String (ascii_of_nat 0) (String (ascii_of_nat 255) (String (ascii_of_nat 171) ""))).
Proof. split; reflexivity. Qed.
