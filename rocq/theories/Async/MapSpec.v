(** Vocabulary for the properties of the asynchronous map: what a user of the
    map can observe. *)

From Coq Require Import List Arith Bool Lia.
From Verif Require Import Async.Lists Async.Cycle Async.Map.
Import ListNotations.

Section Spec.
Context {V : Type}.
Notation state := (@state V).
Implicit Types s : state.

(** A state some schedule leads to, for some behaviour of the user code. *)
Definition reachable s : Prop := exists l, run init l = Some s.

(** Node [n] is the node of key [k]. *)
Definition of_key s (n : nat) (k : key) : Prop :=
  exists nd, nth_error (nodes s) n = Some nd /\ nkey nd = k.

(** Call [c] of [ConsumeAfterKeysReady] with keys [ks]. *)
Definition requests_keys s (c : nat) (ks : list key) : Prop :=
  exists cn, nth_error (cons s) c = Some cn /\ ckeys cn = ks.
(** Call [c] was made by the value creator (or a consumer) of node [n]. *)
Definition made_by s (c n : nat) : Prop :=
  exists cn, nth_error (cons s) c = Some cn /\ cowner cn = Some n.
(** Call [c] came with a failure function. *)
Definition with_handler s (c : nat) : Prop :=
  exists cn, nth_error (cons s) c = Some cn /\ (cowner cn <> None \/ chandler cn = true).

(** Number of events of a kind. *)
Definition count (f : event V -> bool) s : nat := length (filter f (log s)).

Definition starts s k (e : event V) : bool :=
  match e with
  | EStart n => match nth_error (nodes s) n with
                | Some nd => Nat.eqb (nkey nd) k
                | None => false
                end
  | _ => false
  end.
Definition sets s k (e : event V) : bool :=
  match e with
  | ESet n _ => match nth_error (nodes s) n with
                | Some nd => Nat.eqb (nkey nd) k
                | None => false
                end
  | _ => false
  end.
Definition runs (c : nat) (e : event V) : bool :=
  match e with ERun c' _ => Nat.eqb c c' | _ => false end.
Definition fails (c : nat) (e : event V) : bool :=
  match e with EFailed c' => Nat.eqb c c' | _ => false end.

(** What first happened to node [n]: its value was set ([Some true]), or a fatal
    error was reported for it or a call it made failed ([Some false]). *)
Definition event_verdict (cs : list consumer) (n : nat) (e : event V) : option bool :=
  match e with
  | ESet m _ => if Nat.eqb n m then Some true else None
  | EFatal m => if Nat.eqb n m then Some false else None
  | EFailed c => match nth_error cs c with
                 | Some cn => match cowner cn with
                              | Some m => if Nat.eqb n m then Some false else None
                              | None => None
                              end
                 | None => None
                 end
  | _ => None
  end.
Fixpoint verdict (cs : list consumer) (n : nat) (l : list (event V)) : option bool :=
  match l with
  | [] => None
  | e :: older => match verdict cs n older with
                  | Some b => Some b
                  | None => event_verdict cs n e
                  end
  end.

Definition key_verdict s (k : key) (o : option bool) : Prop :=
  exists n, of_key s n k /\ verdict (cons s) n (log s) = o.
(** The value of [k] was set, [k] failed, nothing happened to [k] yet. *)
Definition key_set s k := key_verdict s k (Some true).
Definition key_failed s k := key_verdict s k (Some false).
Definition key_open s k := key_verdict s k None.

(** No library code is running and no task is queued. *)
Definition quiet s : Prop := procs s = [] /\ pool s = [].

(** All the started user code (value creators, and consumers of calls made by
    value creators) has set its value, reported an error, or requested more. *)
Definition cooperative s : Prop := forall n b, In (n, b) (acts s) -> b = true.

(** Steps of the library: nothing new from the user. *)
Definition internal (a : action V) : Prop :=
  match a with ATake _ | AStep _ _ => True | _ => False end.

End Spec.
