(** The operations a server remembers, and waiting for them. *)
From Coq Require Import String Ascii NArith ZArith List Bool Arith.
From Verif Require Import Hex.Model.
Import ListNotations.
Local Open Scope string_scope.
Local Open Scope list_scope.
Local Open Scope nat_scope.

(** google.longrunning.Operation, as far as the server sets it,
    execution_server.cpp:200-213, 269-276: the name, the time of the last update
    (in the metadata; only the seconds are used), and, once it is done, the
    response. *)
Record operation := mkOperation {
  o_name : string;
  o_seconds : Z;
  o_done : bool;
  o_response : option string
}.
(** OperationCache::cache_, operation_cache.hpp:55: each key occurs once. *)
Definition cache : Type := list (string * operation).

(** OperationCache::QueryInternal, operation_cache.hpp:65-73. *)
Fixpoint Query (c : cache) (x : string) : option operation :=
  match c with
  | [] => None
  | (k, o) :: r => if String.eqb k x then Some o else Query r x
  end.
(** DropInternal, operation_cache.hpp:75-78. *)
Definition Drop (c : cache) (x : string) : cache := filter (fun e => negb (String.eqb (fst e) x)) c.
Definition store (c : cache) (x : string) (o : operation) : cache := (x, o) :: Drop c x.

Section Cache.
(** [std::copy] and [std::sort], operation_cache.cpp:24-36: the entries by their
    seconds; the order of an unordered map, and of entries with the same
    seconds, is not specified. *)
Variable sorted : cache -> cache.
(** [threshold_], operation_cache.hpp:53, 57. *)
Variable threshold : nat.

(** The loop, operation_cache.cpp:38-47. *)
Fixpoint collect (tmp : cache) (deleted : nat) (c : cache) : cache :=
  match tmp with
  | [] => c
  | (k, o) :: r =>
      let '(deleted', c') := if o_done o then (S deleted, Drop c k) else (deleted, c) in
      if Nat.eqb deleted' threshold then c' else collect r deleted' c'
  end.
(** OperationCache::GarbageCollection, operation_cache.cpp:24-49. *)
Definition GarbageCollection (c : cache) : cache :=
  if 2 * threshold <? length c then collect (sorted c) 0 c else c.
(** OperationCache::SetInternal, operation_cache.hpp:59-63. *)
Definition Set_ (c : cache) (action : string) (o : operation) : cache := store (GarbageCollection c) action o.

(** ** The requests of a server

    What ExecutionServiceImpl::Execute does with the cache,
    execution_server.cpp:269-276, 200-213: when the execution of an action
    begins, and when it ended with a response. In the other cases (the action
    could not be executed, its result could not be stored),
    execution_server.cpp:286-295, 299-303, 318-327, nothing is done with the
    cache. *)
Inductive event :=
| Begin (name : string) (seconds : Z)
| Finish (name : string) (response : string) (seconds : Z)
| Fail (name : string).
Definition happen (c : cache) (e : event) : cache :=
  match e with
  | Begin x s => Set_ c x (mkOperation x s false None)
  | Finish x r s => Set_ c x (mkOperation x s true (Some r))
  | Fail _ => c
  end.
Definition happened (es : list event) : cache := fold_left happen es [].

(** ExecutionServiceImpl::WaitExecution, execution_server.cpp:335-358, where
    [polls] are the contents of the cache each time it is asked; [None]: still
    waiting. The answer is an error or an operation. *)
Inductive reply := Invalid | NotFound | Written (o : operation).
Fixpoint wait_polls (polls : list cache) (x : string) : option reply :=
  match polls with
  | [] => None
  | c :: r =>
      match Query c x with
      | None => Some NotFound
      | Some o => if o_done o then Some (Written o) else wait_polls r x
      end
  end.
Definition WaitExecution (polls : list cache) (x : string) : option reply :=
  if IsHexString x then wait_polls polls x else Some Invalid.

(** OperationsServiceImpl::GetOperation, operations_server.cpp:26-49. *)
Definition GetOperation (c : cache) (x : string) : reply :=
  if IsHexString x then match Query c x with None => NotFound | Some o => Written o end else Invalid.
End Cache.
