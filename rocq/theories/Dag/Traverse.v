(** Traversal of the action graph: model of Traverser
    (src/buildtool/execution_engine/traverser/traverser.hpp) and of the
    traversal states of the nodes (execution_engine/dag/dag.hpp 132-251) as a
    transition system.

    Every task handed to the task system, and the call of [Traverse] itself, is
    a list of instructions; one transition executes the first instruction of any
    of them, so any number of workers in any interleaving is covered (more
    schedules than the task system produces).  An instruction contains at most
    one access to shared data that others change.  Memory is sequentially
    consistent.  What [runner_.Process] does is not modelled; it may take any
    time and succeed or fail. *)

From Coq Require Import List Arith Bool ZArith Lia.
From Verif Require Import Async.Lists.
Import ListNotations.

(** The graph, as linked by DependencyGraph: builder and consumers of an
    artifact node, dependencies and outputs of an action node (dag.hpp 253-455;
    [Children] and [Parents] of the nodes). *)
Record graph := mkG {
  known : nat -> bool;            (** the artifact has a node *)
  builder : nat -> option nat;    (** [BuilderActionNode] of an artifact *)
  consumers : nat -> list nat;    (** [Parents] of an artifact node *)
  deps : nat -> list nat;         (** [Children] of an action node *)
  outs : nat -> list nat          (** [Parents] of an action node *)
}.

Inductive node := Art (a : nat) | Act (c : nat).

Definition node_eqb (x y : node) : bool :=
  match x, y with
  | Art a, Art b => Nat.eqb a b
  | Act a, Act b => Nat.eqb a b
  | _, _ => false
  end.

(** Beginning and end of a call of [runner_.Process] (bookkeeping). *)
Inductive event := EStart (n : node) | EEnd (n : node) (ok : bool).

Inductive instr :=
  | ITargets (l : list nat)  (** loop of [Traverse] over the targets left, 139-155 *)
  | IVisit (n : node)        (** a visit is due; [MarkRequired], 162 and 185 *)
  | IAvail (a : nat)         (** rest of the visit of an artifact, 167-178 *)
  | IDep (d : nat)           (** body of the loop of the visit of an action, 186-190 *)
  | IReady (c : nat)         (** end of the visit of an action, 192-194 *)
  | IQVisit (n : node)       (** [QueueVisit], 101-109 *)
  | IQProc (n : node)        (** [QueueProcessing], 115-130 *)
  | IProc (n : node)         (** call of [runner_.Process], 122 *)
  | IEnd (n : node)          (** its return *)
  | INotify (a : nat)        (** [NotifyAvailable] of an artifact, 197-206 *)
  | IDec (c : nat)           (** body of its loop, 202-204 *)
  | IAbort.                  (** [Abort], 132-135 *)

(** [has_been_discovered_], [is_queued_to_be_processed_], [is_required_],
    [is_available_], [unavailable_deps_], [failed_] *)
Record state := mkS {
  disc : node -> bool;
  queued : node -> bool;
  req : node -> bool;
  avail : nat -> bool;
  unav : nat -> Z;
  failed : bool;
  tasks : list (list instr);
  log : list event            (** newest first *)
}.

Definition set (f : node -> bool) (n : node) : node -> bool :=
  fun m => if node_eqb n m then true else f m.
Definition set_nat (f : nat -> bool) (n : nat) : nat -> bool :=
  fun m => if Nat.eqb n m then true else f m.
Definition sub1 (f : nat -> Z) (n : nat) : nat -> Z :=
  fun m => if Nat.eqb n m then (f m - 1)%Z else f m.

(** Effect of an instruction: new flags, and what its task has to do next; new
    tasks are added at the end. *)
Definition set_disc (s : state) n :=
  mkS (set (disc s) n) (queued s) (req s) (avail s) (unav s) (failed s) (tasks s) (log s).
Definition set_queued (s : state) n :=
  mkS (disc s) (set (queued s) n) (req s) (avail s) (unav s) (failed s) (tasks s) (log s).
Definition set_req (s : state) n :=
  mkS (disc s) (queued s) (set (req s) n) (avail s) (unav s) (failed s) (tasks s) (log s).
Definition set_avail (s : state) a :=
  mkS (disc s) (queued s) (req s) (set_nat (avail s) a) (unav s) (failed s) (tasks s) (log s).
Definition set_unav (s : state) u :=
  mkS (disc s) (queued s) (req s) (avail s) u (failed s) (tasks s) (log s).
Definition set_failed (s : state) :=
  mkS (disc s) (queued s) (req s) (avail s) (unav s) true (tasks s) (log s).
Definition set_log (s : state) e :=
  mkS (disc s) (queued s) (req s) (avail s) (unav s) (failed s) (tasks s) (e :: log s).
Definition set_tasks (s : state) t :=
  mkS (disc s) (queued s) (req s) (avail s) (unav s) (failed s) t (log s).

(** [choice]: for [IQVisit] and [IQProc], [failed_] was read before it was set;
    for [IEnd], the result of [Process].  Result: flags, what the task has to do
    before it goes on, new tasks. *)
Definition exec (g : graph) (s : state) (choice : bool) (i : instr)
    : state * list instr * list (list instr) :=
  match i with
  | ITargets [] => (s, [], [])
  | ITargets (a :: l) => (s, if known g a then [IQVisit (Art a); ITargets l] else [IAbort], [])
  | IVisit (Art a) => (set_req s (Art a), [IAvail a], [])
  | IVisit (Act c) => (set_req s (Act c), map IDep (deps g c) ++ [IReady c], [])
  | IAvail a =>
      (s, if avail s a then []
          else match builder g a with
               | Some c => [IQVisit (Act c)]
               | None => [IQProc (Art a)]
               end, [])
  | IDep d => (s, if avail s d then [] else [IQVisit (Art d)], [])
  | IReady c => (s, if Z.eqb (unav s c) 0 then [IQProc (Act c)] else [], [])
  | IQVisit n =>
      if (failed s && negb choice) || disc s n then (s, [], [])
      else (set_disc s n, [], [[IVisit n]])
  | IQProc n =>
      if (failed s && negb choice) || negb (req s n) || queued s n then (s, [], [])
      else (set_queued s n, [], [[IProc n]])
  | IProc n => (set_log s (EStart n), [IEnd n], [])
  | IEnd n =>
      (set_log s (EEnd n choice),
       if choice then match n with Art a => [INotify a] | Act c => map INotify (outs g c) end
       else [IAbort], [])
  | INotify a => (set_avail s a, map IDec (consumers g a), [])
  | IDec c => (set_unav s (sub1 (unav s) c),
               if Z.eqb (unav s c) 1 then [IQProc (Act c)] else [], [])
  | IAbort => (set_failed s, [], [])
  end.

Inductive action :=
  | Do (k : nat) (choice : bool)   (** task [k] goes on *)
  | Drop (k : nat).                (** a task not yet begun is skipped after a shutdown *)

Definition step (g : graph) (s : state) (a : action) : option state :=
  match a with
  | Do k choice =>
      match nth_error (tasks s) k with
      | Some (i :: rest) =>
          let '(s', first, new) := exec g s choice i in
          Some (set_tasks s' (upd (tasks s) k (first ++ rest) ++ new))
      | _ => None
      end
  | Drop k =>
      match nth_error (tasks s) k with
      | Some [IVisit _] | Some [IProc _] =>
          if failed s then Some (set_tasks s (upd (tasks s) k [])) else None
      | _ => None
      end
  end.

Fixpoint run (g : graph) (s : state) (l : list action) : option state :=
  match l with
  | [] => Some s
  | a :: l' => match step g s a with
               | Some s' => run g s' l'
               | None => None
               end
  end.

(** Before the call of [Traverse] with the given targets; the counters are set
    by [NotifyDoneLinking], dag.hpp 371-373. *)
Definition init (g : graph) (targets : list nat) : state :=
  mkS (fun _ => false) (fun _ => false) (fun _ => false) (fun _ => false)
      (fun c => Z.of_nat (length (deps g c))) false [[ITargets targets]] [].

(** All tasks are done. *)
Definition finished (s : state) : Prop := forall t, In t (tasks s) -> t = [].
