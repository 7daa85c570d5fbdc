(** Model of the description of the execution backend and of the shards of the target cache,
    src/buildtool/storage/backend_description.{hpp,cpp} and target_cache.hpp.

    JSON values are those of Rules/Model.v, with the members of objects in the order of their names.  The
    text of a JSON value ([dump], with replacement of what is no UTF-8) and the hashes are parameters.
    Exceptions for lack of memory are not modelled. *)
From Coq Require Import String List Bool.
From Verif Require Import Common.Strs Rules.Model Remote.Address.
Import ListNotations.
Local Open Scope string_scope.
Local Open Scope list_scope.

(** What the operator and the comparison may give; [Undefined] stands for the use of a null pointer. *)
Inductive defined (A : Type) := Defined (a : A) | Undefined.
Arguments Defined {A}. Arguments Undefined {A}.

(** ExecutionProperties, a std::map of strings; in the order of the keys. *)
Definition properties := list (string * string).
Definition properties_json (p : properties) : json := JObj (map (fun '(k, v) => (k, JStr v)) p).

(** backend_description.cpp:40-42 and 57-60; ServerAddress::ToJson, remote_common.hpp:36-39. *)
Definition address_json (a : option address) : json :=
  match a with Some x => JStr (address_text x) | None => JNull end.
Definition endpoint_json (e : properties * address) : json :=
  JArr [properties_json (fst e); JStr (address_text (snd e))].

(** The JSON value built in [Describe], backend_description.cpp:39-68. *)
Definition describe_json (a : option address) (p : properties) (d : list (properties * address)) : json :=
  JObj ((match d with [] => [] | _ => [("endpoint dispatch list", JArr (map endpoint_json d))] end) ++
        [("platform_properties", properties_json p); ("remote_address", address_json a)]).

Section WithText.
  Variable dump : json -> string.
  Variable sha256 : string -> string.

  (** The class, backend_description.hpp:29-61: [sha] is [None] for a null pointer. *)
  Record backend := mkBackend { description : string; sha : option string }.

  (** [Describe], backend_description.cpp:34-92. *)
  Definition Describe (a : option address) (p : properties) (d : list (properties * address)) : backend :=
    let result := dump (describe_json a p d) in mkBackend result (Some (sha256 result)).

  (** The constructor without arguments, backend_description.cpp:24-32: the hash is not taken over. *)
  Definition default_backend : backend := mkBackend (description (Describe None [] [])) None.

  (** [operator==], backend_description.hpp:47-50: equal pointers, or else equal texts. *)
  Definition same (b1 b2 : backend) : defined bool :=
    match sha b1, sha b2 with
    | None, None => Defined true
    | Some s1, Some s2 => Defined (String.eqb s1 s2)
    | _, _ => Undefined
    end.

  (** [WithShard], target_cache.hpp:71-81: the backend of the cache returned. *)
  Definition WithShard (own requested : backend) : defined backend :=
    match same own requested with
    | Undefined => Undefined
    | Defined true => Defined own
    | Defined false => Defined requested
    end.

  (** The directory of the cache below that of all target caches, target_cache.hpp:148-151;
      [hash] is the hash function of the content-addressable storage. *)
  Definition shard (hash : string -> string) (b : backend) : string := hash (description b).
End WithText.
