(** Model of reading addresses of servers, properties and dispatch lists,
    src/buildtool/common/remote/remote_common.hpp and src/buildtool/common/remote/port.hpp.

    JSON values are those of Rules/Model.v; that the text of a dispatch list is JSON at all is not
    modelled.  Messages are not modelled. *)
From Coq Require Import String Ascii List Bool NArith.
From Verif Require Import Common.Strs Hex.Model Describe.Model Rules.Model.
Import ListNotations.
Local Open Scope string_scope.
Local Open Scope list_scope.

(** All functions below are noexcept: an exception that leaves them ends the program
    (std::terminate). *)
Inductive outcome (A : Type) := Value (a : A) | Refused | Terminated.
Arguments Value {A}. Arguments Refused {A}. Arguments Terminated {A}.

(** [std::stoi], with 32-bit [int]: white space, a sign, digits; text after the digits is ignored. *)
Inductive stoi_result := Int (negative : bool) (n : N) | InvalidArgument | OutOfRange.
Definition stoi (s : string) : stoi_result :=
  let s1 := skip_space s in
  let '(neg, s2) :=
    match s1 with
    | String c r =>
        if Ascii.eqb c "+" then (false, r) else if Ascii.eqb c "-" then (true, r) else (false, s1)
    | EmptyString => (false, s1)
    end in
  match digits10 s2 0 false with
  | None => InvalidArgument
  | Some n => if (n <? (if neg then 2 ^ 31 + 1 else 2 ^ 31))%N then Int neg n else OutOfRange
  end.

(** [ParsePort], port.hpp:33-45. *)
Definition ParsePortNumber (neg : bool) (n : N) : outcome N :=
  if ((negb neg || (n =? 0)) && (n <=? 65535))%N%bool then Value n else Refused.

(** [ParsePort], port.hpp:47-56: only std::invalid_argument is caught. *)
Definition ParsePort (port : string) : outcome N :=
  match stoi port with
  | Int neg n => ParsePortNumber neg n
  | InvalidArgument => Refused
  | OutOfRange => Terminated
  end.

(** [ServerAddress], remote_common.hpp:32-40. *)
Record address := mkAddress { a_host : string; a_port : N }.
Definition address_text (a : address) : string := (a_host a ++ ":" ++ N_text (a_port a))%string.

(** [ParseAddress], remote_common.hpp:46-59. *)
Definition ParseAddress (s : string) : outcome address :=
  match getline ":" (Some s) with
  | None => Refused
  | Some (host, rest) =>
      match getline ":" rest with
      | None => Refused
      | Some (port, _) =>
          match ParsePort port with
          | Terminated => Terminated
          | Refused => Refused
          | Value n => match host with "" => Refused | _ => Value (mkAddress host n) end
          end
      end
  end.

Definition newline : ascii := "010"%char.

(** [ParseProperty], remote_common.hpp:61-71. *)
Definition ParseProperty (s : string) : option (string * string) :=
  match getline ":" (Some s) with
  | None => None
  | Some (key, rest) =>
      match getline newline rest with
      | None => None
      | Some (val, _) => Some (key, val)
      end
  end.

(** The property condition, remote_common.hpp:104-113. *)
Fixpoint read_condition (m : list (string * json)) : option (list (string * string)) :=
  match m with
  | [] => Some []
  | (k, JStr v) :: m' =>
      match read_condition m' with Some r => Some ((k, v) :: r) | None => None end
  | _ :: _ => None
  end.

(** [ParseDispatch], remote_common.hpp:73-135. *)
Fixpoint read_entries (l : list json) : outcome (list (list (string * string) * address)) :=
  match l with
  | [] => Value []
  | JArr [JObj m; a] :: l' =>
      match read_condition m with
      | None => Refused
      | Some props =>
          match a with
          | JStr s =>
              match ParseAddress s with
              | Terminated => Terminated
              | Refused => Refused
              | Value e =>
                  match read_entries l' with
                  | Value r => Value ((props, e) :: r)
                  | Refused => Refused
                  | Terminated => Terminated
                  end
              end
          | _ => Refused
          end
      end
  | _ :: _ => Refused
  end.
Definition ParseDispatch (dispatch : json) : outcome (list (list (string * string) * address)) :=
  match dispatch with
  | JArr l => read_entries l
  | _ => Refused
  end.
