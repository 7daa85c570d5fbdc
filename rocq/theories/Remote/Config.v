(** Model of the settings for remote execution, src/buildtool/execution_api/remote/config.cpp.
    The instance name, which is only copied, and messages are not modelled. *)
From Coq Require Import String List Bool NArith.
From Verif Require Import Common.Strs Rules.Model Remote.Address.
Import ListNotations.
Local Open Scope string_scope.
Local Open Scope list_scope.

(** [RemoteExecutionConfig], config.hpp:27-44. *)
Record config := mkConfig {
  remote_address : option address;
  dispatch : list (list (string * string) * address);
  cache_address : option address;
  platform_properties : list (string * string)
}.

(** std::map::insert_or_assign. *)
Fixpoint assign (k v : string) (l : list (string * string)) : list (string * string) :=
  match l with
  | [] => [(k, v)]
  | (k', v') :: l' => if String.eqb k k' then (k, v) :: l' else (k', v') :: assign k v l'
  end.

(** config.cpp:83-99. *)
Fixpoint set_properties (raw : list string) (l : list (string * string)) : option (list (string * string)) :=
  match raw with
  | [] => Some l
  | p :: raw' =>
      match ParseProperty p with
      | Some (k, v) => set_properties raw' (assign k v l)
      | None => None
      end
  end.

(** config.cpp:29-38. *)
Definition set_remote (raw : option string) : outcome (option address) :=
  match raw with
  | None => Value None
  | Some s =>
      match ParseAddress s with
      | Value a => Value (Some a)
      | Refused => Refused
      | Terminated => Terminated
      end
  end.

(** config.cpp:39-57. *)
Definition set_cache (raw : option string) (remote : option address) : outcome (option address) :=
  match raw with
  | None => Value remote
  | Some s =>
      match ParseAddress s with
      | Value a => Value (Some a)
      | Refused => if String.eqb s "local" then Value None else Refused
      | Terminated => Terminated
      end
  end.

(** config.cpp:59-80: the file is not given, cannot be read as JSON, or is. *)
Definition set_dispatch (file : option (option json)) : outcome (list (list (string * string) * address)) :=
  match file with
  | None => Value []
  | Some None => Refused
  | Some (Some d) => ParseDispatch d
  end.

(** [RemoteExecutionConfig::Builder::Build], config.cpp:23-106. *)
Definition Build (remote_raw cache_raw : option string) (dispatch_file : option (option json))
    (properties_raw : list string) : outcome config :=
  match set_remote remote_raw with
  | Terminated => Terminated
  | Refused => Refused
  | Value remote =>
  match set_cache cache_raw remote with
  | Terminated => Terminated
  | Refused => Refused
  | Value cache =>
  match set_dispatch dispatch_file with
  | Terminated => Terminated
  | Refused => Refused
  | Value d =>
  match set_properties properties_raw [] with
  | None => Refused
  | Some props => Value (mkConfig remote d cache props)
  end end end end.
