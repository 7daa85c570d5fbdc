(** Model of src/utils/cpp/hex_string.hpp.

    Strings are byte strings; [unsigned char] values are [N] below 256. *)
From Coq Require Import String Ascii NArith List Bool.
Import ListNotations.
Local Open Scope string_scope.

(** Value of a hexadecimal digit, [None] if [std::isxdigit] is false in the C locale
    (hex_string.hpp:29; also the digit classification inside [std::stoul], line 50). *)
Definition xdigit (c : ascii) : option N :=
  let n := N_of_ascii c in
  if ((48 <=? n) && (n <=? 57))%N then Some (n - 48)%N
  else if ((97 <=? n) && (n <=? 102))%N then Some (n - 87)%N
  else if ((65 <=? n) && (n <=? 70))%N then Some (n - 55)%N
  else None.

(** [IsHexString], hex_string.hpp:26-30. *)
Fixpoint IsHexString (s : string) : bool :=
  match s with
  | EmptyString => true
  | String c r => match xdigit c with Some _ => IsHexString r | None => false end
  end.

(** The digit printed by [std::hex] (lower case) for a value below 16, hex_string.hpp:35. *)
Definition hex_char (n : N) : ascii :=
  if (n <? 10)%N then ascii_of_N (48 + n) else ascii_of_N (87 + n).

(** [ToHexString], hex_string.hpp:32-41: [setw(2)], [setfill('0')], each byte as [unsigned char]. *)
Fixpoint ToHexString (bytes : string) : string :=
  match bytes with
  | EmptyString => EmptyString
  | String b r =>
      let n := N_of_ascii b in
      String (hex_char (n / 16)) (String (hex_char (n mod 16)) (ToHexString r))
  end.

(** [isspace] in the C locale: space, \t \n \v \f \r. *)
Definition isspace (c : ascii) : bool :=
  let n := N_of_ascii c in ((n =? 32) || ((9 <=? n) && (n <=? 13)))%N.

Fixpoint skip_space (s : string) : string :=
  match s with
  | String c r => if isspace c then skip_space r else s
  | EmptyString => EmptyString
  end.

(** The digit loop of strtoul for base 16: stops at the first non-digit (in particular at NUL, the
    end of the C string). The accumulator is the value so far, [seen] tells whether a digit was
    consumed. *)
Fixpoint digits16 (s : string) (acc : N) (seen : bool) : option N :=
  match s with
  | String c r =>
      match xdigit c with
      | Some d => digits16 r (acc * 16 + d)%N true
      | None => if seen then Some acc else None
      end
  | EmptyString => if seen then Some acc else None
  end.

(** [std::stoul(s, nullptr, 16)], hex_string.hpp:50, as specified by C17 7.22.1.4: optional white
    space, optional sign, optional 0x/0X prefix, digits; [None] is the [std::invalid_argument]
    exception (no conversion). A prefix without following digit converts the leading 0 alone.
    A minus sign negates in [unsigned long] (modulo 2^64). Overflow ([std::out_of_range]) cannot
    occur for the two-character arguments passed here and is not modelled. *)
Definition stoul16 (s : string) : option N :=
  let s1 := skip_space s in
  let '(neg, s2) :=
    match s1 with
    | String c r =>
        if Ascii.eqb c "+" then (false, r) else if Ascii.eqb c "-" then (true, r) else (false, s1)
    | EmptyString => (false, s1)
    end in
  let v :=
    match s2 with
    | String c0 (String cx r) =>
        if (Ascii.eqb c0 "0" && (Ascii.eqb cx "x" || Ascii.eqb cx "X"))%bool then
          match digits16 r 0 false with Some v => Some v | None => Some 0%N end
        else digits16 s2 0 false
    | _ => digits16 s2 0 false
    end in
  match v with
  | Some n => Some (if neg then ((2 ^ 64 - n) mod 2 ^ 64)%N else n)
  | None => None
  end.

(** [FromHexString], hex_string.hpp:43-57: substrings of two characters (the last may have one);
    the result is truncated to [unsigned char]. [None] is [std::nullopt]. *)
Fixpoint FromHexString (s : string) : option string :=
  match s with
  | EmptyString => Some EmptyString
  | String a EmptyString =>
      match stoul16 (String a EmptyString) with
      | Some n => Some (String (ascii_of_N (n mod 256)) EmptyString)
      | None => None
      end
  | String a (String b r) =>
      match stoul16 (String a (String b EmptyString)) with
      | Some n =>
          match FromHexString r with
          | Some t => Some (String (ascii_of_N (n mod 256)) t)
          | None => None
          end
      | None => None
      end
  end.
