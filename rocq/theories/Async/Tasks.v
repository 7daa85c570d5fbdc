(** The task system: model of TaskSystem, NotificationQueue and
    WaitableZeroCounter (src/buildtool/multithreading/task_system.hpp,
    task_system.cpp, notification_queue.hpp) as a transition system.

    One transition is one acquisition or release of a queue's mutex, one access
    to shared data under it, or one atomic access.  Simplifications:
    - Memory is sequentially consistent.
    - [WaitableZeroCounter::Decrement] (shared lock, decrement, notification)
      is one transition.  The lock excludes only the critical sections of
      [WaitForZero], which are one transition each as well; a thread notified
      must wait for the lock anyway.
    - A mutex [try_lock] may fail at any time, as the C++ standard permits.
    - A condition variable may wake up spuriously at any time (action
      [ASpur]).
    - Tasks are numbered in the order of the calls of [QueueTask].  What a task
      does is not fixed: while it runs, it may call [QueueTask] and [Shutdown]
      any number of times, and it may return at any time.  [Finish] is called
      from threads other than the workers.
    - Constructor and destructor: the workers are there from the start; joining
      them is waiting for their state [WExit].
    - The counters are unbounded. *)

From Coq Require Import List Arith Bool Lia.
From Verif Require Import Async.Lists.
Import ListNotations.

(** [NotificationQueue], notification_queue.hpp 71-175.  [qsig]: the condition
    variable [ready_] was notified since the last time a thread began to wait
    for it. *)
Record queue := mkQ {
  items : list nat;            (** [queue_] *)
  qdone : bool;                (** [done_] *)
  qlock : bool;                (** [mutex_] *)
  qsig : bool
}.

(** The shared data: [TaskSystem], task_system.hpp 75-84, and its
    [WaitableZeroCounter], notification_queue.hpp 34-69.  [cgen] counts the
    notifications of [cv_]. *)
Record shared := mkX {
  queues : list queue;         (** [queues_] *)
  index : nat;                 (** [index_] *)
  shut : bool;                 (** [shutdown_] *)
  count : nat;                 (** [total_workload_.count_] *)
  cdone : bool;                (** [total_workload_.done_] *)
  cgen : nat;
  next : nat;                  (** number of tasks so far (bookkeeping) *)
  started : list nat;          (** tasks started (bookkeeping) *)
  completed : list nat;        (** tasks that returned (bookkeeping) *)
  dropped : list nat           (** tasks skipped by a shutdown (bookkeeping) *)
}.

(** Calls in progress. *)
Inductive op :=
  | ONone
  (* QueueTask for task [t], task_system.hpp 51-61 *)
  | OTry (t idx i : nat)       (** attempt [i] of [try_push] *)
  | OHeld (t q : nat)          (** [try_push] got the mutex, line 148 *)
  | OPushInc (t q : nat)       (** [push], line 132 *)
  | OPushLock (t q : nat)      (** [push], line 134 *)
  | OEmplace (t q : nat)       (** mutex held; lines 135 and 149 *)
  | ONotify (q : nat)          (** lines 137 and 151 *)
  (* Finish, task_system.cpp 54-61: WaitForZero, notification_queue.hpp 47-52 *)
  | OFin                       (** the condition of the loop *)
  | OFinLock                   (** take the lock, check the predicate *)
  | OFinAsleep (g : nat)       (** waiting since notification [g] *)
  (* Shutdown, task_system.cpp 43-52 *)
  | OShut
  | OAbort                     (** [total_workload_.Abort()] *)
  | ODone (q : nat)            (** [q.done()]: lock, set, unlock *)
  | ODoneNotify (q : nat).     (** [q.done()]: notify *)

(** Worker threads in [TaskSystem::Run], task_system.cpp 63-84. *)
Inductive wpc :=
  | WTop                       (** condition of the loop *)
  | WTry (i : nat)             (** [try_pop] of queue [(idx + i) % n] *)
  | WTryHeld (i : nat)         (** [try_pop], mutex held *)
  | WTryDec (i t : nat)        (** [try_pop], task popped, mutex held *)
  | WPop                       (** [pop] of queue [idx % n], about to lock *)
  | WPopHeld                   (** mutex held *)
  | WIdleDec                   (** nothing there: about to [Decrement] *)
  | WSleep                     (** about to wait *)
  | WAsleep                    (** in [ready_.wait], mutex released *)
  | WWake                      (** about to lock again *)
  | WWakeHeld                  (** check the predicate again *)
  | WIncr                      (** about to [Increment] *)
  | WTake                      (** mutex held; line 105 *)
  | WTakeDec (t : nat)         (** task popped, mutex held *)
  | WCheck (t : nat)           (** task_system.cpp 78 *)
  | WRun (t : nat) (o : op)    (** task running, inside of call [o] *)
  | WExit.

Inductive thread :=
  | Worker (j : nat) (w : wpc)
  | Client (o : op).

Record state := mkS { sh : shared; ths : list thread }.

Definition set_queues (x : shared) qs :=
  mkX qs (index x) (shut x) (count x) (cdone x) (cgen x) (next x)
      (started x) (completed x) (dropped x).
Definition set_q (x : shared) q Q := set_queues x (upd (queues x) q Q).
Definition set_shut (x : shared) :=
  mkX (queues x) (index x) true (count x) (cdone x) (cgen x) (next x)
      (started x) (completed x) (dropped x).
(** [Abort], notification_queue.hpp 54-58. *)
Definition abort (x : shared) :=
  mkX (queues x) (index x) (shut x) (count x) true (S (cgen x)) (next x)
      (started x) (completed x) (dropped x).
(** [Increment], notification_queue.hpp 45. *)
Definition increment (x : shared) :=
  mkX (queues x) (index x) (shut x) (S (count x)) (cdone x) (cgen x) (next x)
      (started x) (completed x) (dropped x).
(** [Decrement], notification_queue.hpp 38-43; [None] is an underflow. *)
Definition decrement (x : shared) : option shared :=
  match count x with
  | 0 => None
  | S c => Some (mkX (queues x) (index x) (shut x) c (cdone x)
                     (if Nat.eqb c 0 then S (cgen x) else cgen x) (next x)
                     (started x) (completed x) (dropped x))
  end.
(** [IsZero], notification_queue.hpp 66-68. *)
Definition is_zero (x : shared) : bool := Nat.eqb (count x) 0 || cdone x.
Definition log_start (x : shared) t :=
  mkX (queues x) (index x) (shut x) (count x) (cdone x) (cgen x) (next x)
      (t :: started x) (completed x) (dropped x).
Definition log_complete (x : shared) t :=
  mkX (queues x) (index x) (shut x) (count x) (cdone x) (cgen x) (next x)
      (started x) (t :: completed x) (dropped x).
Definition log_drop (x : shared) t :=
  mkX (queues x) (index x) (shut x) (count x) (cdone x) (cgen x) (next x)
      (started x) (completed x) (t :: dropped x).
(** A new task, and [index_++]; task_system.hpp 52. *)
Definition new_task (x : shared) :=
  mkX (queues x) (S (index x)) (shut x) (count x) (cdone x) (cgen x) (S (next x))
      (started x) (completed x) (dropped x).

Definition with_lock (Q : queue) b := mkQ (items Q) (qdone Q) b (qsig Q).
Definition with_items (Q : queue) l := mkQ l (qdone Q) (qlock Q) (qsig Q).

Definition lock_q (x : shared) (q : nat) : option shared :=
  match nth_error (queues x) q with
  | None => None
  | Some Q => if qlock Q then None else Some (set_q x q (with_lock Q true))
  end.
Definition unlock_q (x : shared) (q : nat) : option shared :=
  match nth_error (queues x) q with
  | None => None
  | Some Q => Some (set_q x q (with_lock Q false))
  end.
(** Notify the condition variable [ready_] of queue [q]. *)
Definition notify_q (x : shared) (q : nat) : option shared :=
  match nth_error (queues x) q with
  | None => None
  | Some Q => Some (set_q x q (mkQ (items Q) (qdone Q) (qlock Q) true))
  end.
(** The predicate of [pop], notification_queue.hpp 96-98. *)
Definition there_is (Q : queue) : bool :=
  match items Q with [] => qdone Q | _ => true end.

Definition kNumberOfAttempts := 5.

Definition bind {A B} (o : option A) (f : A -> option B) : option B :=
  match o with Some a => f a | None => None end.
Notation "'do' x <- e ; f" := (bind e (fun x => f)) (at level 60, right associativity).

(** One step of a call; [fail]: a [try_lock] fails spuriously.  [None]: the
    thread has to wait. *)
Definition step_op (x : shared) (fail : bool) (o : op) : option (shared * op) :=
  let n := length (queues x) in
  match o with
  | ONone => None
  | OTry t idx i =>
      if Nat.ltb i (n * kNumberOfAttempts) then
        match (if fail then None else lock_q x ((idx + i) mod n)) with
        | Some x' => Some (x', OHeld t ((idx + i) mod n))
        | None => Some (x, OTry t idx (S i))
        end
      else Some (x, OPushInc t (idx mod n))
  | OHeld t q => Some (increment x, OEmplace t q)
  | OPushInc t q => Some (increment x, OPushLock t q)
  | OPushLock t q => do x' <- lock_q x q; Some (x', OEmplace t q)
  | OEmplace t q =>
      match nth_error (queues x) q with
      | None => None
      | Some Q => Some (set_q x q (mkQ (items Q ++ [t]) (qdone Q) false (qsig Q)), ONotify q)
      end
  | ONotify q => do x' <- notify_q x q; Some (x', ONone)
  | OFin => Some (x, if is_zero x then ONone else OFinLock)
  | OFinLock => Some (x, if is_zero x then OFin else OFinAsleep (cgen x))
  | OFinAsleep g => if Nat.ltb g (cgen x) then Some (x, OFinLock) else None
  | OShut => Some (set_shut x, OAbort)
  | OAbort => Some (abort x, ODone 0)
  | ODone q =>
      match nth_error (queues x) q with
      | None => None
      | Some Q => if qlock Q then None
                  else Some (set_q x q (mkQ (items Q) true false (qsig Q)), ODoneNotify q)
      end
  | ODoneNotify q =>
      do x' <- notify_q x q;
      Some (x', if Nat.ltb (S q) n then ODone (S q) else ONone)
  end.

(** One step of worker [j]. *)
Definition step_worker (x : shared) (fail : bool) (j : nat) (w : wpc)
    : option (shared * wpc) :=
  let n := length (queues x) in
  let own := j mod n in
  match w with
  | WTop => Some (x, if shut x then WExit else WTry 0)
  | WTry i =>
      if Nat.ltb i n then
        match (if fail then None else lock_q x ((j + i) mod n)) with
        | Some x' => Some (x', WTryHeld i)
        | None => Some (x, WTry (S i))
        end
      else Some (x, WPop)
  | WTryHeld i =>
      match nth_error (queues x) ((j + i) mod n) with
      | None => None
      | Some Q =>
          match items Q with
          | [] => Some (set_q x ((j + i) mod n) (with_lock Q false), WTry (S i))
          | t :: r => Some (set_q x ((j + i) mod n) (with_items Q r), WTryDec i t)
          end
      end
  | WTryDec i t =>
      do x1 <- decrement x; do x2 <- unlock_q x1 ((j + i) mod n); Some (x2, WCheck t)
  | WPop => do x' <- lock_q x own; Some (x', WPopHeld)
  | WPopHeld =>
      match nth_error (queues x) own with
      | None => None
      | Some Q => Some (x, if there_is Q then WTake else WIdleDec)
      end
  | WIdleDec => do x1 <- decrement x; Some (x1, WSleep)
  | WSleep =>
      match nth_error (queues x) own with
      | None => None
      | Some Q => Some (set_q x own (mkQ (items Q) (qdone Q) false false), WAsleep)
      end
  | WAsleep =>
      match nth_error (queues x) own with
      | None => None
      | Some Q => if qsig Q then Some (x, WWake) else None
      end
  | WWake => do x' <- lock_q x own; Some (x', WWakeHeld)
  | WWakeHeld =>
      match nth_error (queues x) own with
      | None => None
      | Some Q => Some (x, if there_is Q then WIncr else WSleep)
      end
  | WIncr => Some (increment x, WTake)
  | WTake =>
      match nth_error (queues x) own with
      | None => None
      | Some Q =>
          match items Q with
          | [] => Some (set_q x own (with_lock Q false), WExit)
          | t :: r => Some (set_q x own (with_items Q r), WTakeDec t)
          end
      end
  | WTakeDec t =>
      do x1 <- decrement x; do x2 <- unlock_q x1 own; Some (x2, WCheck t)
  | WCheck t => if shut x then Some (log_drop x t, WExit)
                else Some (log_start x t, WRun t ONone)
  | WRun t o => do r <- step_op x fail o; Some (fst r, WRun t (snd r))
  | WExit => None
  end.

Inductive call := CQueue | CShutdown | CFinish.

Inductive action :=
  | AStep (i : nat) (fail : bool)   (** thread [i] goes on *)
  | ACall (i : nat) (c : call)      (** thread [i] calls the task system *)
  | ARet (i : nat)                  (** the task of thread [i] returns *)
  | ASpur (i : nat)                 (** spurious wake-up of thread [i] *)
  | ASpawn.                         (** a new thread that is not a worker *)

(** The calls a client, or a running task, may start. *)
Definition start_call (x : shared) (c : call) : shared * op :=
  match c with
  | CQueue => (new_task x, OTry (next x) (index x) 0)
  | CShutdown => (x, OShut)
  | CFinish => (x, OFin)
  end.

Definition step_thread (x : shared) (fail : bool) (th : thread) : option (shared * thread) :=
  match th with
  | Worker j w => do r <- step_worker x fail j w; Some (fst r, Worker j (snd r))
  | Client o => do r <- step_op x fail o; Some (fst r, Client (snd r))
  end.

Definition call_thread (x : shared) (c : call) (th : thread) : option (shared * thread) :=
  match th, c with
  | Worker j (WRun t ONone), CFinish => None
  | Worker j (WRun t ONone), _ =>
      Some (fst (start_call x c), Worker j (WRun t (snd (start_call x c))))
  | Client ONone, _ => Some (fst (start_call x c), Client (snd (start_call x c)))
  | _, _ => None
  end.

Definition ret_thread (x : shared) (th : thread) : option (shared * thread) :=
  match th with
  | Worker j (WRun t ONone) => Some (log_complete x t, Worker j WTop)
  | _ => None
  end.

Definition spur_thread (x : shared) (th : thread) : option (shared * thread) :=
  match th with
  | Worker j WAsleep => Some (x, Worker j WWake)
  | Client (OFinAsleep g) => Some (x, Client OFinLock)
  | _ => None
  end.

Definition update (s : state) (i : nat) (f : thread -> option (shared * thread))
    : option state :=
  match nth_error (ths s) i with
  | None => None
  | Some th => match f th with
               | Some (x, th') => Some (mkS x (upd (ths s) i th'))
               | None => None
               end
  end.

Definition step (s : state) (a : action) : option state :=
  match a with
  | AStep i fail => update s i (step_thread (sh s) fail)
  | ACall i c => update s i (call_thread (sh s) c)
  | ARet i => update s i (ret_thread (sh s))
  | ASpur i => update s i (spur_thread (sh s))
  | ASpawn => Some (mkS (sh s) (ths s ++ [Client ONone]))
  end.

Fixpoint run (s : state) (l : list action) : option state :=
  match l with
  | [] => Some s
  | a :: l' => match step s a with
               | Some s' => run s' l'
               | None => None
               end
  end.

(** Constructor with [n] threads, task_system.cpp 24-33. *)
Definition init_x (n : nat) : shared :=
  mkX (repeat (mkQ [] false false false) n) 0 false n false 0 0 [] [] [].
Definition init (n : nat) : state :=
  mkS (init_x (max 1 n)) (map (fun j => Worker j WTop) (seq 0 (max 1 n))).
