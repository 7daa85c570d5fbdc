(** The asynchronous map: model of AsyncMap, AsyncMapNode and AsyncMapConsumer
    (src/buildtool/multithreading/async_map.hpp, async_map_node.hpp,
    async_map_consumer.hpp) as a transition system.

    Every thread that executes library code is a process; one transition is
    one critical section or one lock-free access of one process.  Memory is
    sequentially consistent; in particular the unsynchronised reads of
    [value_.has_value()] by [IsReady] (async_map_node.hpp 168-170) are taken to
    be atomic.  The number of threads is not bounded, tasks are taken from the
    task system in any order (the task system itself is modelled in
    Async/Tasks.v).

    The code of the user (value creators, consumers, callers) is not fixed:
    whenever a value creator or a consumer has been started on behalf of a
    node, it may, at any time from then on, call the setter, report a fatal
    error, or request further keys, any number of times and in any order. *)

From Coq Require Import List Arith Bool Lia.
From Verif Require Import Async.Lists Async.Cycle.
Import ListNotations.

Set Implicit Arguments.

Section Map.
Variable V : Type.

(** Tasks handed to the task system. *)
Inductive task :=
  | TCreate (n : nat)            (** call the value creator for node [n];
                                     async_map_consumer.hpp 233-242 *)
  | TWhenAll (c pos : nat)       (** [QueueTaskWhenAllReady] for consumer [c];
                                     async_map_consumer.hpp 173-181, 274-278 *)
  | TConsume (c : nat)           (** call consumer [c]; async_map_consumer.hpp
                                     160-162, 259-268 *)
  | TFail (c : nat).             (** call the failure function of [c];
                                     async_map_consumer.hpp 169, 272 *)

(** [AsyncMapNode], async_map_node.hpp 32-190. *)
Record node := mkNode {
  nkey : key;                    (** [key_] *)
  nqueued : bool;                (** [is_queued_to_be_processed_] *)
  nvalue : option V;             (** [value_] *)
  nfailed : bool;                (** [failed_] *)
  nawait : list task;            (** [awaiting_tasks_] *)
  nonfail : list task            (** [failure_tasks_] *)
}.

(** A call of [ConsumeAfterKeysReady]: the arguments, and the vector [nodes]
    once it has been computed (async_map_consumer.hpp 152-185).  [cowner] is
    the node whose sub-caller was used; its key is [consumer_id] and the
    failure function is to fail this node (lines 212-223).  Calls from outside
    have no [consumer_id] and may or may not have a failure function. *)
Record consumer := mkCons {
  ckeys : list key;
  cowner : option nat;
  chandler : bool;
  cnodes : list nat
}.

(** Threads inside of the library. *)
Inductive proc :=
  | PEnsure (c : nat) (ks : list key) (acc : list nat)
      (** [EnsureValuesEventuallyPresent]: keys [ks] to do, nodes [acc] done *)
  | PAdd (c : nat) (k : key) (ks : list key) (acc : list nat)
      (** the look up of [k] under the shared lock found nothing *)
  | PNode (c : nat) (n : nat) (ks : list key) (acc : list nat)
      (** about to mark node [n] as queued to be processed *)
  | PPush (c : nat) (n : nat) (ks : list key) (acc : list nat)
      (** about to queue the value creator for node [n] *)
  | PFail1 (c pos : nat)   (** [QueueOnFailure], lock-free check *)
  | PFail2 (c pos : nat)   (** [QueueOnFailure], under the lock *)
  | PWait1 (c pos : nat)   (** [AddOrQueueAwaitingTask], lock-free check *)
  | PWait2 (c pos : nat)   (** [AddOrQueueAwaitingTask], under the lock *)
  | PRecord (c pos : nat). (** [RecordNodeRequest] *)

(** Observable events. *)
Inductive event :=
  | EStart (n : nat)                        (** value creator called *)
  | ESet (n : nat) (v : V)                  (** setter of the node called *)
  | EFatal (n : nat)                        (** fatal error reported *)
  | ERun (c : nat) (vs : list (option V))   (** consumer called; [None] is the
                                                undefined access of an unset
                                                value by [GetValue] *)
  | EFailed (c : nat).                      (** failure function called *)

Record state := mkState {
  nodes : list node;
  kmap : list (key * nat);       (** [AsyncMap::map_]; the partition by hash is
                                     not modelled, it is a function of the key *)
  cons : list consumer;
  pool : list task;              (** queued tasks *)
  procs : list proc;
  reqs : list (nat * list (key * nat));
                                 (** [requests_by_thread_], by thread id *)
  acts : list (nat * bool);      (** started value creators and consumers: the
                                     node they work for, and whether they have
                                     called the library (bookkeeping only) *)
  log : list event               (** newest first (bookkeeping only) *)
}.

Definition init : state := mkState [] [] [] [] [] [] [] [].

Definition set_nodes (s : state) ns :=
  mkState ns (kmap s) (cons s) (pool s) (procs s) (reqs s) (acts s) (log s).
Definition set_node (s : state) n nd := set_nodes s (upd (nodes s) n nd).
Definition set_kmap (s : state) m :=
  mkState (nodes s) m (cons s) (pool s) (procs s) (reqs s) (acts s) (log s).
Definition set_cons (s : state) cs :=
  mkState (nodes s) (kmap s) cs (pool s) (procs s) (reqs s) (acts s) (log s).
Definition set_pool (s : state) p :=
  mkState (nodes s) (kmap s) (cons s) p (procs s) (reqs s) (acts s) (log s).
Definition set_procs (s : state) ps :=
  mkState (nodes s) (kmap s) (cons s) (pool s) ps (reqs s) (acts s) (log s).
Definition set_reqs (s : state) r :=
  mkState (nodes s) (kmap s) (cons s) (pool s) (procs s) r (acts s) (log s).
Definition set_acts (s : state) a :=
  mkState (nodes s) (kmap s) (cons s) (pool s) (procs s) (reqs s) a (log s).
Definition emit (s : state) e :=
  mkState (nodes s) (kmap s) (cons s) (pool s) (procs s) (reqs s) (acts s)
          (e :: log s).

(** [ts->QueueTask]. *)
Definition queue (s : state) (ts : list task) : state := set_pool s (pool s ++ ts).

(** [IsReady], async_map_node.hpp 168-170. *)
Definition ready (nd : node) : bool :=
  match nvalue nd with Some _ => true | None => false end.

(** [SetAndQueueAwaitingTasks], async_map_node.hpp 42-57. *)
Definition set_value (s : state) (n : nat) (v : V) : option state :=
  match nth_error (nodes s) n with
  | None => None
  | Some nd =>
    if nfailed nd then Some s
    else Some (queue (set_node s n (mkNode (nkey nd) (nqueued nd) (Some v)
                                           (nfailed nd) [] []))
                     (nawait nd))
  end.

(** [Fail], async_map_node.hpp 135-155. *)
Definition fail_node (s : state) (n : nat) : option state :=
  match nth_error (nodes s) n with
  | None => None
  | Some nd =>
    if ready nd then Some s
    else if nfailed nd then Some s
    else Some (queue (set_node s n (mkNode (nkey nd) (nqueued nd) (nvalue nd)
                                           true [] []))
                     (nonfail nd))
  end.

(** Look up in [map_], async_map.hpp 96-104. *)
Fixpoint lookup (m : list (key * nat)) (k : key) : option nat :=
  match m with
  | [] => None
  | (k', n) :: m' => if Nat.eqb k k' then Some n else lookup m' k
  end.

(** Is there a failure function ([fail != nullptr])? *)
Definition has_fail (c : consumer) : bool :=
  match cowner c with Some _ => true | None => chandler c end.

(** A new call of [ConsumeAfterKeysReady], async_map_consumer.hpp 152-165. *)
Definition start_call (s : state) (ks : list key) (owner : option nat)
    (handler : bool) : state :=
  let c := length (cons s) in
  let s1 := set_cons s (cons s ++ [mkCons ks owner handler []]) in
  match ks with
  | [] => queue s1 [TConsume c]
  | _ => set_procs s1 (procs s1 ++ [PEnsure c ks []])
  end.

(** Start waiting for the node at position [pos]: register the failure function
    if there is one, async_map_consumer.hpp 168-170 and 271-273. *)
Definition wait_at (cn : consumer) (c pos : nat) : proc :=
  if has_fail cn then PFail1 c pos else PWait1 c pos.

(** [RecordNodeRequest], async_map_consumer.hpp 284-298, for thread [tid]. *)
Fixpoint record (r : list (nat * list (key * nat))) (tid : nat) (k : key) (n : nat)
    : list (nat * list (key * nat)) :=
  match r with
  | [] => [(tid, [(k, n)])]
  | (t, l) :: r' => if Nat.eqb tid t then (t, (k, n) :: l) :: r'
                    else (t, l) :: record r' tid k n
  end.

(** One transition of process [i], executed by thread [tid]. *)
Definition step_proc (s : state) (i tid : nat) : option state :=
  let become s p := Some (set_procs s (upd (procs s) i p)) in
  let finish s := Some (set_procs s (del (procs s) i)) in
  match nth_error (procs s) i with
  | None => None
  | Some (PEnsure c [] acc) =>
      (* all nodes are there: async_map_consumer.hpp 167-170 *)
      match nth_error (cons s) c with
      | None => None
      | Some cn =>
          become (set_cons s (upd (cons s) c
                    (mkCons (ckeys cn) (cowner cn) (chandler cn) acc)))
                 (wait_at cn c 0)
      end
  | Some (PEnsure c (k :: ks) acc) =>
      (* GetNodeOrNullFromSharedMap, async_map.hpp 96-104 *)
      match lookup (kmap s) k with
      | Some n => become s (PNode c n ks acc)
      | None => become s (PAdd c k ks acc)
      end
  | Some (PAdd c k ks acc) =>
      (* AddKey, async_map.hpp 106-119 *)
      match lookup (kmap s) k with
      | Some n => become s (PNode c n ks acc)
      | None =>
          let n := length (nodes s) in
          become (set_kmap (set_nodes s (nodes s ++ [mkNode k false None false [] []]))
                           ((k, n) :: kmap s))
                 (PNode c n ks acc)
      end
  | Some (PNode c n ks acc) =>
      (* GetAndMarkQueuedToBeProcessed, async_map_node.hpp 66-73, 185-188 *)
      match nth_error (nodes s) n with
      | None => None
      | Some nd =>
          if nqueued nd then become s (PEnsure c ks (acc ++ [n]))
          else become (set_node s n (mkNode (nkey nd) true (nvalue nd) (nfailed nd)
                                            (nawait nd) (nonfail nd)))
                      (PPush c n ks acc)
      end
  | Some (PPush c n ks acc) =>
      become (queue s [TCreate n]) (PEnsure c ks (acc ++ [n]))
  | Some (PFail1 c pos) =>
      (* QueueOnFailure, async_map_node.hpp 117-121 *)
      match nth_error (cons s) c with
      | None => None
      | Some cn =>
        match nth_error (cnodes cn) pos with
        | None => None
        | Some n =>
          match nth_error (nodes s) n with
          | None => None
          | Some nd => become s (if ready nd then PWait1 c pos else PFail2 c pos)
          end
        end
      end
  | Some (PFail2 c pos) =>
      (* QueueOnFailure, async_map_node.hpp 122-131 *)
      match nth_error (cons s) c with
      | None => None
      | Some cn =>
        match nth_error (cnodes cn) pos with
        | None => None
        | Some n =>
          match nth_error (nodes s) n with
          | None => None
          | Some nd =>
            if nfailed nd then become (queue s [TFail c]) (PWait1 c pos)
            else become (set_node s n (mkNode (nkey nd) (nqueued nd) (nvalue nd)
                                              (nfailed nd) (nawait nd)
                                              (nonfail nd ++ [TFail c])))
                        (PWait1 c pos)
          end
        end
      end
  | Some (PWait1 c pos) =>
      (* AddOrQueueAwaitingTask, async_map_node.hpp 84-90 *)
      match nth_error (cons s) c with
      | None => None
      | Some cn =>
        match nth_error (cnodes cn) pos with
        | None => None
        | Some n =>
          match nth_error (nodes s) n with
          | None => None
          | Some nd =>
            if ready nd then finish (queue s [TWhenAll c (S pos)])
            else become s (PWait2 c pos)
          end
        end
      end
  | Some (PWait2 c pos) =>
      (* AddOrQueueAwaitingTask, async_map_node.hpp 91-107, and the decision to
         record the request, async_map_consumer.hpp 182-184 and 279-281 *)
      match nth_error (cons s) c with
      | None => None
      | Some cn =>
        let not_queued s := match cowner cn with
                            | Some _ => become s (PRecord c pos)
                            | None => finish s
                            end in
        match nth_error (cnodes cn) pos with
        | None => None
        | Some n =>
          match nth_error (nodes s) n with
          | None => None
          | Some nd =>
            if nfailed nd then not_queued s
            else if ready nd then finish (queue s [TWhenAll c (S pos)])
            else not_queued (set_node s n (mkNode (nkey nd) (nqueued nd) (nvalue nd)
                                             (nfailed nd)
                                             (nawait nd ++ [TWhenAll c (S pos)])
                                             (nonfail nd)))
          end
        end
      end
  | Some (PRecord c pos) =>
      match nth_error (cons s) c with
      | None => None
      | Some cn =>
        match cowner cn, nth_error (cnodes cn) pos with
        | Some o, Some n =>
          match nth_error (nodes s) o with
          | None => None
          | Some ndo => finish (set_reqs s (record (reqs s) tid (nkey ndo) n))
          end
        | _, _ => None
        end
      end
  end.

(** A worker takes task [i] of the pool and starts it. *)
Definition take_task (s : state) (i : nat) : option state :=
  match nth_error (pool s) i with
  | None => None
  | Some t =>
    let s := set_pool s (del (pool s) i) in
    match t with
    | TCreate n =>
        Some (emit (set_acts s (acts s ++ [(n, false)])) (EStart n))
    | TWhenAll c pos =>
        (* QueueTaskWhenAllReady, async_map_consumer.hpp 248-282 *)
        match nth_error (cons s) c with
        | None => None
        | Some cn =>
            if Nat.eqb pos (length (cnodes cn)) then Some (queue s [TConsume c])
            else Some (set_procs s (procs s ++ [wait_at cn c pos]))
        end
    | TConsume c =>
        match nth_error (cons s) c with
        | None => None
        | Some cn =>
            let vs := map (fun n => match nth_error (nodes s) n with
                                    | Some nd => nvalue nd
                                    | None => None
                                    end) (cnodes cn) in
            let s := emit s (ERun c vs) in
            match cowner cn with
            | None => Some s
            | Some o => Some (set_acts s (acts s ++ [(o, false)]))
            end
        end
    | TFail c =>
        match nth_error (cons s) c with
        | None => None
        | Some cn =>
            let s := emit s (EFailed c) in
            match cowner cn with
            | None => Some s
            | Some o => fail_node s o
            end
        end
    end
  end.

(** What can happen. *)
Inductive action :=
  | ACall (ks : list key) (handler : bool)
      (** a call of [ConsumeAfterKeysReady] from outside *)
  | ASub (j : nat) (ks : list key)
      (** activation [j] calls its sub-caller, async_map_consumer.hpp 213-223 *)
  | ASet (j : nat) (v : V)
      (** activation [j] calls its setter, lines 209-211 *)
  | AFatal (j : nat)
      (** a fatal error is reported to the logger of activation [j],
          lines 224-230 *)
  | ATake (i : nat)
  | AStep (i tid : nat).

Definition acted (s : state) (j n : nat) : state :=
  set_acts s (upd (acts s) j (n, true)).

Definition step (s : state) (a : action) : option state :=
  match a with
  | ACall ks h => Some (start_call s ks None h)
  | ASub j ks =>
      match nth_error (acts s) j with
      | None => None
      | Some (n, _) => Some (start_call (acted s j n) ks (Some n) false)
      end
  | ASet j v =>
      match nth_error (acts s) j with
      | None => None
      | Some (n, _) => set_value (emit (acted s j n) (ESet n v)) n v
      end
  | AFatal j =>
      match nth_error (acts s) j with
      | None => None
      | Some (n, _) => fail_node (emit (acted s j n) (EFatal n)) n
      end
  | ATake i => take_task s i
  | AStep i tid => step_proc s i tid
  end.

Fixpoint run (s : state) (l : list action) : option state :=
  match l with
  | [] => Some s
  | a :: l' => match step s a with
               | Some s' => run s' l'
               | None => None
               end
  end.

(** [GetPendingKeys], async_map.hpp 65-82. *)
Definition pending_keys (s : state) : list key :=
  map nkey (filter (fun nd => negb (ready nd)) (nodes s)).

(** [GetPendingRequests], async_map_consumer.hpp 300-315: the requests of all
    threads merged by consumer, without the nodes that are ready by now. *)
Fixpoint add_request (r : requests) (k : key) (ds : list key) : requests :=
  match r with
  | [] => [(k, ds)]
  | (k', ds') :: r' => if Nat.eqb k k' then (k', ds' ++ ds) :: r'
                       else (k', ds') :: add_request r' k ds
  end.

Definition pending_requests (s : state) : requests :=
  fold_left (fun r '(k, n) =>
               match nth_error (nodes s) n with
               | Some nd => add_request r k (if ready nd then [] else [nkey nd])
               | None => r
               end)
            (flat_map snd (reqs s)) [].

End Map.

Arguments init {V}.
Arguments EStart {V}.
Arguments EFatal {V}.
Arguments EFailed {V}.
Arguments ACall {V}.
Arguments ASub {V}.
Arguments AFatal {V}.
Arguments ATake {V}.
Arguments AStep {V}.
