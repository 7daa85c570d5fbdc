(** Vocabulary for the properties of the storage. *)
From Coq Require Import String List Bool Arith.
From Verif Require Import GitTree.Model Storage.Model.
Import ListNotations.

(** A file is there. *)
Definition present (g : gen) (s : slot) (i : id) : Prop := lookup g s i <> None.

(** A blob is available in a generation: as file, as executable, or in parts;
    likewise for a tree. *)
Definition avail_blob (g : gen) (i : id) : Prop :=
  present g SFile i \/ present g SExec i \/ present g SLargeFile i.
Definition avail_tree (g : gen) (i : id) : Prop :=
  present g STree i \/ present g SLargeTree i.
Definition avail (g : gen) (t : otype) (i : id) : Prop :=
  if IsTreeObject t then avail_tree g i else avail_blob g i.

(** All the objects named are available. *)
Definition refs_avail (g : gen) (refs : list (otype * id)) : Prop :=
  forall t i, In (t, i) refs -> avail g t i.
Definition entries_avail (g : gen) (es : list (id * (otype * list otype))) : Prop :=
  forall i t0 ts t, In (i, (t0, ts)) es -> In t (t0 :: ts) -> avail g t i.

(** No two different contents in the list have the same hash. *)
Definition no_collision (hash : kind -> bytes -> id) (l : list (kind * bytes)) : Prop :=
  forall k a k' b, In (k, a) l -> In (k', b) l -> hash k a = hash k' b -> k = k' /\ a = b.

(** ** Executions *)

(** The operations of the storage. *)
Inductive op :=
| OStoreBlob (b : bytes) (x : bool)
| OStoreTree (b : bytes)
| OAddTree (d : id) (b : bytes)
| OReadBlob (d : id) (x : bool)
| OReadTree (d : id)
| OSplitBlob (d : id)
| OSplitTree (d : id)
| OSpliceBlob (d : id) (parts : list id) (x : bool)
| OSpliceTree (d : id) (parts : list id)
| OStoreResult (a : id) (b : bytes)
| OCachedResult (a : id)
| OStoreTarget (a : id) (b : bytes)
| OReadTarget (a : id).

(** What they return. *)
Inductive answer :=
| ADone (ok : bool)
| AId (i : option id)
| ABytes (b : option bytes)
| AParts (l : option (list id))
| ARefs (l : option (list (otype * id)))
| ATarget (l : option (list id * list (otype * id))).

Section Executions.
Variable C : config.

Definition program (o : op) : M answer :=
  match o with
  | OStoreBlob b x => r <- StoreBlob C b x ;; ret (AId r)
  | OStoreTree b => r <- StoreTree C b ;; ret (AId r)
  | OAddTree d b => r <- AddTree C d b ;; ret (ADone r)
  | OReadBlob d x => r <- ReadBlob C d x ;; ret (ABytes r)
  | OReadTree d => r <- ReadTree C d ;; ret (ABytes r)
  | OSplitBlob d => r <- Split C None SLargeFile d ;; ret (AParts r)
  | OSplitTree d => r <- Split C None SLargeTree d ;; ret (AParts r)
  | OSpliceBlob d parts x => r <- Splice C (blob_slot x) d parts ;; ret (AId r)
  | OSpliceTree d parts => r <- Splice C STree d parts ;; ret (AId r)
  | OStoreResult a b => r <- StoreResult C a b ;; ret (ADone r)
  | OCachedResult a => r <- CachedResult C a ;; ret (ARefs r)
  | OStoreTarget a b => r <- StoreTarget C a b ;; ret (ADone r)
  | OReadTarget a => r <- ReadTarget C a ;; ret (ATarget r)
  end.

(** The disk, and the threads (of all processes) with what they still have to
    do. *)
Record system := mkSystem { disk : store; threads : list (op * M answer) }.

(** A thread makes one access. *)
Fixpoint advance (l : list (op * M answer)) (t : nat) (ok : bool) (σ : store) : list (op * M answer) * store :=
  match l, t with
  | [], _ => ([], σ)
  | (o, Ret a) :: r, O => ((o, Ret a) :: r, σ)
  | (o, Act X act k) :: r, O => let '(x, σ') := act ok σ in ((o, k x) :: r, σ')
  | p :: r, S t' => let '(r', σ') := advance r t' ok σ in (p :: r', σ')
  end.

(** A computation running alone; killed when the list of outcomes of its
    accesses ends. *)
Fixpoint run {A} (m : M A) (oks : list bool) (σ : store) : option A * store :=
  match m with
  | Ret a => (Some a, σ)
  | Act X act k =>
      match oks with
      | [] => (None, σ)
      | ok :: r => let '(x, σ') := act ok σ in run (k x) r σ'
      end
  end.

(** What can happen: an operation is started; thread [t] makes its next access;
    the garbage collector runs. It holds the lock exclusively, so all processes
    that started operations before have ended or were killed. *)
Inductive action :=
| Start (o : op)
| Step (t : nat) (ok : bool)
| Collect (no_rotation gc_all : bool) (files entries big : list (slot * id)) (oks : list bool).

Definition perform (Σ : system) (a : action) : system :=
  match a with
  | Start o => mkSystem (disk Σ) (threads Σ ++ [(o, program o)])
  | Step t ok => let '(l, σ) := advance (threads Σ) t ok (disk Σ) in mkSystem σ l
  | Collect nr al f e b oks =>
      mkSystem (snd (run (TriggerGarbageCollection C nr al f e b) oks (disk Σ))) []
  end.
Definition perform_all (acts : list action) (Σ : system) : system := fold_left perform acts Σ.

(** Thread [t] runs [o] and has returned [r]. *)
Definition returned (Σ : system) (t : nat) (o : op) (r : answer) : Prop :=
  nth_error (threads Σ) t = Some (o, Ret r).

(** A new storage with [n] generations. *)
Definition fresh (n : nat) : system := mkSystem (mkStore (repeat [] n) []) [].

(** No access fails with an I/O error; crashes are possible. *)
Definition no_io_error (a : action) : Prop :=
  match a with
  | Start _ => True
  | Step _ ok => ok = true
  | Collect _ _ _ _ _ oks => forall ok, In ok oks -> ok = true
  end.

(** What a caller has to ensure when starting an operation: the objects named
    in a tree stored without check, or in a cached value, are in the storage. *)
Definition contract (σ : store) (o : op) : Prop :=
  let g := gen_at σ 0 in
  match o with
  | OStoreTree b => exists es, cfg_parse_tree C b = Some es /\ entries_avail g es
  | OStoreResult a b => exists refs, cfg_parse_action C b = Some refs /\ refs_avail g refs
  | OStoreTarget a b => exists implied refs, cfg_parse_target C b = Some (implied, refs) /\
      refs_avail g refs /\ forall j, In j implied -> j = a \/ present g STarget j
  | _ => True
  end.
Fixpoint contracts (acts : list action) (Σ : system) : Prop :=
  match acts with
  | [] => True
  | a :: r =>
      match a with Start o => contract (disk Σ) o | _ => True end /\ contracts r (perform Σ a)
  end.

End Executions.

(** The number of garbage collections, finished or not. *)
Definition is_collect (a : action) : bool := match a with Collect _ _ _ _ _ _ => true | _ => false end.
Definition collections (acts : list action) : nat := length (filter is_collect acts).
(** None of them was asked to remove everything. *)
Definition drops_all (a : action) : Prop :=
  match a with Collect _ al _ _ _ _ => al = true | _ => False end.

(** ** What the properties speak about *)
Section Statements.
Variable C : config.
Local Notation hash := (cfg_hash C).

(** What is assumed of the functions the storage is built on: the chunker
    loses nothing and delivers a chunk as its only chunk; hashes have the form
    of hashes. *)
Record sane : Prop := mkSane {
  sane_concat : forall b, fold_right String.append EmptyString (cfg_chunker C b) = b;
  sane_again : forall b c, In c (cfg_chunker C b) -> cfg_chunker C c = [c];
  sane_names : forall k b, cfg_valid_name C (hash k b) = true
}.

(** A history of a storage of [n] generations, starting empty: anything can be
    interrupted anywhere, no I/O error occurs, callers store only complete
    trees and results, no two contents collide; [cfg_fuel] bounds the depth of
    the recursion in the model only. *)
Definition history (n : nat) (acts : list action) : Prop :=
  0 < n /\ (forall a, In a acts -> no_io_error a) /\ contracts C acts (fresh n) /\
  no_collision hash (log (disk (perform_all C acts (fresh n)))) /\
  length (log (disk (perform_all C acts (fresh n)))) + 2 <= cfg_fuel C.

Definition reached (n : nat) (acts : list action) : system := perform_all C acts (fresh n).

(** No garbage collection is started, or none that removes everything. *)
Definition no_collection (acts : list action) : Prop := forall a, In a acts -> is_collect a = false.
Definition no_drop (acts : list action) : Prop := forall a, In a acts -> ~ drops_all a.

(** An operation that has returned told its caller that the object [d] of type
    [t] is in the storage. *)
Definition told (o : op) (r : answer) (t : otype) (d : id) : Prop :=
  match o, r with
  | OStoreBlob _ _, AId (Some i) => IsTreeObject t = false /\ d = i
  | OStoreTree _, AId (Some i) => IsTreeObject t = true /\ d = i
  | OAddTree i _, ADone true => IsTreeObject t = true /\ d = i
  | OReadBlob i _, ABytes (Some _) => IsTreeObject t = false /\ d = i
  | OReadTree i, ABytes (Some _) => IsTreeObject t = true /\ d = i
  | OSplitBlob i, AParts (Some ps) => IsTreeObject t = false /\ (d = i \/ In d ps)
  | OSplitTree i, AParts (Some ps) => (IsTreeObject t = true /\ d = i) \/ (IsTreeObject t = false /\ In d ps)
  | OSpliceBlob i _ _, AId (Some _) => IsTreeObject t = false /\ d = i
  | OSpliceTree i _, AId (Some _) => IsTreeObject t = true /\ d = i
  | OCachedResult _, ARefs (Some refs) => In (t, d) refs
  | OReadTarget _, ATarget (Some (_, refs)) => In (t, d) refs
  | _, _ => False
  end.

(** The object [d] of type [t] is somewhere below the tree with bytes [b],
    where the contents of trees are looked up in [L]. *)
Inductive below (L : list (kind * bytes)) : bytes -> otype -> id -> Prop :=
| below_entry b es i t0 ts t : cfg_parse_tree C b = Some es -> In (i, (t0, ts)) es -> In t (t0 :: ts) ->
    below L b t i
| below_deep b es i t0 ts t c t' j : cfg_parse_tree C b = Some es -> In (i, (t0, ts)) es ->
    In t (t0 :: ts) -> IsTreeObject t = true -> In (KTree, c) L -> hash KTree c = i ->
    below L c t' j -> below L b t' j.

(** The object itself, or, if it is a tree, something below it. *)
Definition reachable (L : list (kind * bytes)) (t : otype) (d : id) (t' : otype) (d' : id) : Prop :=
  (IsTreeObject t' = IsTreeObject t /\ d' = d) \/
  (IsTreeObject t = true /\ exists b, In (KTree, b) L /\ hash KTree b = d /\ below L b t' d').

Definition kind_for (t : otype) : kind := if IsTreeObject t then KTree else KBlob.
(** The operation looking an object up. *)
Definition lookup_op (t : otype) (d : id) (x : bool) : op :=
  if IsTreeObject t then OReadTree d else OReadBlob d x.

(** A generation holds [b] under the digest [d]: in a file, or in parts. *)
Definition holds (g : gen) (t : otype) (d : id) (b : bytes) : Prop :=
  let in_parts s := exists cs, lookup g s d = Some (Parts (map (hash KBlob) cs)) /\
    (forall c, In c cs -> lookup g SFile (hash KBlob c) = Some (Bytes c)) /\
    fold_right String.append EmptyString cs = b in
  if IsTreeObject t then lookup g STree d = Some (Bytes b) \/ in_parts SLargeTree
  else lookup g SFile d = Some (Bytes b) \/ lookup g SExec d = Some (Bytes b) \/ in_parts SLargeFile.

(** Between now and the end of [acts] the youngest generation never has what
    [P] says, also not between the two parts of a garbage collection. *)
Fixpoint never_young (P : gen -> Prop) (acts : list action) (Σ : system) : Prop :=
  ~ P (gen_at (disk Σ) 0) /\
  match acts with
  | [] => True
  | a :: r =>
      match a with
      | Collect _ false f e b oks => ~ P (gen_at (snd (run (Compactify C f e b) oks (disk Σ))) 0)
      | _ => True
      end /\ never_young P r (perform C Σ a)
  end.

(** The number of garbage collections that completed a rotation. *)
Fixpoint rotations (acts : list action) (Σ : system) : nat :=
  match acts with
  | [] => 0
  | a :: r =>
      match a with
      | Collect false false f e b oks =>
          match fst (run (TriggerGarbageCollection C false false f e b) oks (disk Σ)) with
          | Some true => 1
          | _ => 0
          end
      | _ => 0
      end + rotations r (perform C Σ a)
  end.

End Statements.
