(** JSON values and their text form as produced by [nlohmann::json::dump()] with default arguments
    (a library outside /repo; used in expression.cpp:154-156, evaluator.cpp:807-813 and elsewhere). *)
From Coq Require Import String Ascii List Bool NArith ZArith SpecFloat DecimalString.
Import ListNotations.
Local Open Scope string_scope.

(** C++ [double] (expression.hpp: [number_t]). JSON integers are kept apart from doubles, as in
    nlohmann::json, which writes a double with integral value with a trailing ".0". *)
Definition num := spec_float.
Definition prec : Z := 53%Z.
Definition emax : Z := 1024%Z.

Definition is_finite (n : num) : bool :=
  match n with S754_zero _ | S754_finite _ _ _ => true | _ => false end.

Inductive json :=
| JNull
| JBool (b : bool)
| JInt (z : Z)
| JNum (n : num)
| JStr (s : string)
| JArr (l : list json)
| JObj (m : list (string * json)).

Fixpoint str_concat (sep : string) (l : list string) : string :=
  match l with
  | [] => ""
  | [x] => x
  | x :: r => x ++ sep ++ str_concat sep r
  end.

Definition hexdigit (n : N) : ascii :=
  if N.ltb n 10 then ascii_of_N (48 + n) else ascii_of_N (87 + n).

(** Escaping of one byte in a JSON string (nlohmann serializer, dump_escaped with ensure_ascii=false). *)
Definition esc_char (c : ascii) : string :=
  let n := N_of_ascii c in
  if N.eqb n 8 then "\b"
  else if N.eqb n 9 then "\t"
  else if N.eqb n 10 then "\n"
  else if N.eqb n 12 then "\f"
  else if N.eqb n 13 then "\r"
  else if N.eqb n 34 then String "\" (String """" "")
  else if N.eqb n 92 then "\\"
  else if N.ltb n 32 then "\u00" ++ String (hexdigit (N.div n 16)) (String (hexdigit (N.modulo n 16)) "")
  else String c "".

Fixpoint esc (s : string) : string :=
  match s with
  | EmptyString => ""
  | String c r => esc_char c ++ esc r
  end.

Definition dq : string := String """" "".
Definition quote (s : string) : string := dq ++ esc s ++ dq.

(** Decimal text of an integer. *)
Definition dec_Z (z : Z) : string :=
  match z with
  | Zneg p => "-" ++ NilZero.string_of_uint (Pos.to_uint p)
  | _ => NilZero.string_of_uint (N.to_uint (Z.to_N z))
  end.

Section Dump.
(** The shortest decimal text of a finite double (nlohmann's Grisu2), left abstract. *)
Variable ndump : num -> string.

(** nlohmann serializer, dump_float: infinities and NaN are written as null. *)
Definition num_text (n : num) : string := if is_finite n then ndump n else "null".

Fixpoint dump (j : json) : string :=
  match j with
  | JNull => "null"
  | JBool true => "true"
  | JBool false => "false"
  | JInt z => dec_Z z
  | JNum n => num_text n
  | JStr s => quote s
  | JArr l => "[" ++ str_concat "," (map dump l) ++ "]"
  | JObj m => "{" ++ str_concat "," (map (fun p => match p with (k, v) => quote k ++ ":" ++ dump v end) m) ++ "}"
  end.
End Dump.

(** Well-formed UTF-8 (Unicode 15, table 3-7), the strings [dump] accepts; on all other strings it
    throws. [utf8_go k lo hi]: [k] continuation bytes are due, the next one within [lo..hi]. *)
Fixpoint utf8_go (k : nat) (lo hi : N) (l : list ascii) : bool :=
  match l with
  | [] => match k with O => true | _ => false end
  | c :: r =>
      let n := N_of_ascii c in
      match k with
      | S k' => N.leb lo n && N.leb n hi && utf8_go k' 128 191 r
      | O =>
          if N.ltb n 128 then utf8_go 0 0 0 r
          else if N.ltb n 194 then false
          else if N.ltb n 224 then utf8_go 1 128 191 r
          else if N.eqb n 224 then utf8_go 2 160 191 r
          else if N.eqb n 237 then utf8_go 2 128 159 r
          else if N.ltb n 240 then utf8_go 2 128 191 r
          else if N.eqb n 240 then utf8_go 3 144 191 r
          else if N.ltb n 244 then utf8_go 3 128 191 r
          else if N.eqb n 244 then utf8_go 3 128 143 r
          else false
      end
  end.
Definition utf8_valid (s : string) : bool := utf8_go 0 0 0 (list_ascii_of_string s).

Fixpoint json_utf8 (j : json) : bool :=
  match j with
  | JStr s => utf8_valid s
  | JArr l => forallb json_utf8 l
  | JObj m => forallb (fun p => match p with (k, v) => utf8_valid k && json_utf8 v end) m
  | _ => true
  end.

(** Induction over nested JSON values. *)
Section Ind.
Variable P : json -> Prop.
Hypothesis Hnull : P JNull.
Hypothesis Hbool : forall b, P (JBool b).
Hypothesis Hint : forall z, P (JInt z).
Hypothesis Hnum : forall n, P (JNum n).
Hypothesis Hstr : forall s, P (JStr s).
Hypothesis Harr : forall l, Forall P l -> P (JArr l).
Hypothesis Hobj : forall m, Forall (fun p => P (snd p)) m -> P (JObj m).
Fixpoint json_ind' (j : json) : P j :=
  match j with
  | JNull => Hnull
  | JBool b => Hbool b
  | JInt z => Hint z
  | JNum n => Hnum n
  | JStr s => Hstr s
  | JArr l => Harr l ((fix go (l : list json) : Forall P l :=
      match l with [] => Forall_nil _ | x :: r => Forall_cons x (json_ind' x) (go r) end) l)
  | JObj m => Hobj m ((fix go (m : list (string * json)) : Forall (fun p => P (snd p)) m :=
      match m with [] => Forall_nil _ | (k, v) :: r => Forall_cons (k, v) (json_ind' v) (go r) end) m)
  end.
End Ind.
