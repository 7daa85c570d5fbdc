(** Model of the local storage (native protocol): the content-addressable
    storage with its generations, large objects, action cache and target
    cache, garbage collection and compactification.
    /repo/src/buildtool/storage, /repo/src/buildtool/file_system/object_cas.hpp
    and file_storage.hpp.

    Simplifications valid throughout:
    - a digest is its hash; the size is not modelled;
    - temporary files are not modelled: they have names that are no hashes, and
      files get their final name by an atomic link or rename;
    - JSON and protobuf files are kept as the values they encode;
    - a missing generation directory is an empty generation. *)
From Coq Require Import String List Bool Arith.
From Verif Require Import GitTree.Model.
Import ListNotations.

Definition id := string.
Definition bytes := string.

(** The directories of a generation: GenerationConfig, storage/config.hpp
    (cas_f, cas_x, cas_t, cas_large_f, cas_large_t, action_cache,
    target_cache). *)
Inductive slot := SFile | SExec | STree | SLargeFile | SLargeTree | SAction | STarget.

Definition slot_eqb (a b : slot) : bool :=
  match a, b with
  | SFile, SFile | SExec, SExec | STree, STree | SLargeFile, SLargeFile
  | SLargeTree, SLargeTree | SAction, SAction | STarget, STarget => true
  | _, _ => false
  end.

(** Content of a file: the bytes of an object, the parts of a large entry, or
    the key of an object holding a cached value. *)
Inductive data := Bytes (b : bytes) | Parts (l : list id) | Key (i : id).

(** A generation: the files it contains. *)
Definition gen := list ((slot * id) * data).

Definition at_path (s : slot) (i : id) (p : slot * id) : bool :=
  (slot_eqb s (fst p) && String.eqb i (snd p))%bool.

Fixpoint lookup (g : gen) (s : slot) (i : id) : option data :=
  match g with
  | [] => None
  | (p, d) :: r => if at_path s i p then Some d else lookup r s i
  end.
Definition insert (g : gen) (s : slot) (i : id) (d : data) : gen := ((s, i), d) :: g.
Definition delete (g : gen) (s : slot) (i : id) : gen :=
  filter (fun e => negb (at_path s i (fst e))) g.

(** What a hash is taken of: ArtifactDigestFactory::HashDataAs,
    common/artifact_digest_factory.hpp: blobs and trees are hashed
    differently. *)
Inductive kind := KBlob | KTree.
Definition kind_of (s : slot) : kind :=
  match s with STree | SLargeTree => KTree | _ => KBlob end.

(** The state of the disk, youngest generation first. [log] is a history
    variable, newest first: every content handed to the storage for hashing. *)
Record store := mkStore { gens : list gen; log : list (kind * bytes) }.

Definition gen_at (st : store) (k : nat) : gen := nth k (gens st) [].

Fixpoint update_nth (k : nat) (f : gen -> gen) (l : list gen) : list gen :=
  match l, k with
  | [], _ => []
  | g :: r, O => f g :: r
  | g :: r, S k' => g :: update_nth k' f r
  end.

(** ** Computations with file-system accesses

    A computation is a sequence of accesses to the file system. Each of them is
    atomic; between them, other threads and processes may act. Its first
    argument tells whether the access succeeds or fails with an I/O error. *)
Inductive M (A : Type) : Type :=
| Ret (a : A)
| Act (X : Set) (act : bool -> store -> X * store) (k : X -> M A).
Arguments Ret {A}. Arguments Act {A}.

Definition ret {A} (a : A) : M A := Ret a.
Fixpoint bind {A B} (m : M A) (f : A -> M B) : M B :=
  match m with
  | Ret a => f a
  | Act X act k => Act X act (fun x => bind (k x) f)
  end.
Notation "x <- m ;; f" := (bind m (fun x => f)) (at level 61, m at next level, right associativity).

Definition access {X : Set} (act : bool -> store -> X * store) : M X := Act X act Ret.

(** Reading the file [s]/[i] of generation [k]: FileSystemManager::IsFile and
    ReadFile. Simplification: reading an existing file does not fail. *)
Definition look (k : nat) (s : slot) (i : id) : M (option data) :=
  access (fun _ σ => (lookup (gen_at σ k) s i, σ)).
Definition is_file (k : nat) (s : slot) (i : id) : M bool :=
  d <- look k s i ;; ret (match d with Some _ => true | None => false end).
Definition read_file (k : nat) (s : slot) (i : id) : M (option bytes) :=
  d <- look k s i ;; ret (match d with Some (Bytes b) => Some b | _ => None end).

(** FileStorage::AddFromBytes and AddFromFile, file_storage.hpp:52-64,
    103-163, 192-205, with StoreMode::FirstWins (an existing file is kept) or
    StoreMode::LastWins (it is replaced atomically). *)
Inductive StoreMode := FirstWins | LastWins.
Definition add (mode : StoreMode) (k : nat) (s : slot) (i : id) (d : data) : M bool :=
  access (fun ok σ =>
    match lookup (gen_at σ k) s i, mode with
    | Some _, FirstWins => (true, σ)
    | old, _ =>
        if ok then (true, mkStore (update_nth k (fun g => insert g s i d) (gens σ)) (log σ))
        else (match old with Some _ => true | None => false end, σ)
    end).

(** FileSystemManager::RemoveFile. *)
Definition remove (k : nat) (s : slot) (i : id) : M bool :=
  access (fun ok σ =>
    if ok then (true, mkStore (update_nth k (fun g => delete g s i) (gens σ)) (log σ))
    else (false, σ)).

(** Something else that may fail, such as creating a temporary file. *)
Definition attempt : M bool := access (fun ok σ => (ok, σ)).

(** The history variable. *)
Definition note (k : kind) (b : bytes) : M unit :=
  access (fun _ σ => (tt, mkStore (gens σ) ((k, b) :: log σ))).

(** std::any_of over the generations, and a loop over a list that stops at the
    first failure. *)
Fixpoint any_of {A} (l : list A) (f : A -> M bool) : M bool :=
  match l with
  | [] => ret false
  | x :: r => b <- f x ;; if (b : bool) then ret true else any_of r f
  end.
Fixpoint all_of {A} (l : list A) (f : A -> M bool) : M bool :=
  match l with
  | [] => ret true
  | x :: r => b <- f x ;; if (b : bool) then all_of r f else ret false
  end.
Definition num_generations : M nat := access (fun _ σ => (length (gens σ), σ)).
Definition generations (f : nat -> M bool) : M bool :=
  n <- num_generations ;; any_of (seq 0 n) f.

Definition is_some {A} (o : option A) : bool := match o with Some _ => true | None => false end.

(** What the storage depends on:
    - the hash function: any function;
    - FileChunker on a whole file, see Verif.Chunker;
    - GitRepo::ReadTreeData after the check of the hash, see Verif.GitTree: the
      ids with the types they are listed with (the first one, the others);
    - the artifacts named in a serialized bazel_re::ActionResult, in the order
      output files, file symlinks, directory symlinks, directories;
    - the implied targets and the artifacts of a serialized TargetCacheEntry;
    - whether a name is a hash (two hexadecimal digits and the rest of the
      right length);
    - a bound for the recursions; running out of it counts as failure. *)
Record config := mkConfig {
  cfg_hash : kind -> bytes -> id;
  cfg_chunker : bytes -> list bytes;
  cfg_parse_tree : bytes -> option (list (id * (otype * list otype)));
  cfg_parse_action : bytes -> option (list (otype * id));
  cfg_parse_target : bytes -> option (list id * list (otype * id));
  cfg_valid_name : id -> bool;
  cfg_fuel : nat
}.

Section Storage.

Variable C : config.
Local Notation hash := (cfg_hash C).
Local Notation chunker := (cfg_chunker C).
Local Notation parse_tree := (cfg_parse_tree C).
Local Notation parse_action := (cfg_parse_action C).
Local Notation parse_target := (cfg_parse_target C).
Local Notation valid_name := (cfg_valid_name C).
Local Notation fuel := (cfg_fuel C).

Definition ReadTreeData (b : bytes) (d : id) : option (list (id * (otype * list otype))) :=
  if String.eqb (hash KTree b) d then parse_tree b else None.

(** File or executable CAS, local_cas.hpp:92-113. *)
Definition blob_slot (is_executable : bool) : slot := if is_executable then SExec else SFile.

(** *** A single generation [k] (LocalCAS<false>) *)

(** ObjectCAS::StoreBlob, object_cas.hpp:163-178, with the default exists
    callback. *)
Definition LocalStore (k : nat) (s : slot) (b : bytes) : M (option id) :=
  _ <- note (kind_of s) b ;;
  let i := hash (kind_of s) b in
  e <- is_file k s i ;;
  if (e : bool) then ret (Some i)
  else ok <- add FirstWins k s i (Bytes b) ;; ret (if (ok : bool) then Some i else None).

(** LocalCAS::BlobPath with TrySyncBlob, local_cas.hpp:140-145, 320-328. *)
Definition LocalBlobPath (k : nat) (d : id) (x : bool) : M bool :=
  p <- is_file k (blob_slot x) d ;;
  if (p : bool) then ret true
  else
    src <- read_file k (blob_slot (negb x)) d ;;
    match src with
    | None => ret false
    | Some b =>
        r <- LocalStore k (blob_slot x) b ;;
        if is_some r then is_file k (blob_slot x) d else ret false
    end.

(** LargeObjectCAS::ReadEntry and GetEntryPath without uplinking,
    large_object_cas.tpp:40-95. *)
Definition LocalReadEntry (k : nat) (ls : slot) (d : id) : M (option (list id)) :=
  e <- look k ls d ;;
  ret (match e with Some (Parts ps) => Some ps | _ => None end).

(** LargeObjectCAS::Splice, large_object_cas.tpp:198-246, for the lookup
    [path] of the CAS, whose files are in generation [k]. *)
Fixpoint splice_parts (path : id -> M bool) (k : nat) (parts : list id) : M (option bytes) :=
  match parts with
  | [] => ret (Some EmptyString)
  | p :: r =>
      f <- path p ;;
      if (f : bool) then
        c <- read_file k SFile p ;;
        match c with
        | None => ret None
        | Some b =>
            rest <- splice_parts path k r ;;
            ret (match rest with Some b' => Some (String.append b b') | None => None end)
        end
      else ret None
  end.
Definition splice (path : id -> M bool) (k : nat) (parts : list id) : M (option bytes) :=
  t <- attempt ;; if (t : bool) then splice_parts path k parts else ret None.

(** LargeObjectCAS::TrySplice, large_object_cas.tpp:185-195, and
    LocalCAS::TrySplice, local_cas.tpp:279-284. *)
Definition LocalTrySplice (k : nat) (ls : slot) (d : id) : M (option bytes) :=
  e <- LocalReadEntry k ls d ;;
  match e with
  | None => ret None
  | Some ps => splice (fun p => LocalBlobPath k p false) k ps
  end.

(** LargeObjectCAS::LocalUplink, large_object_cas.tpp:251-283, where [uplink]
    is the uplinking of a part. *)
Definition LocalUplinkLarge (uplink : id -> M bool) (k : nat) (ls : slot) (d : id) : M bool :=
  e <- is_file 0 ls d ;;
  if (e : bool) then ret true
  else
    parts <- LocalReadEntry k ls d ;;
    match parts with
    | None => ret true
    | Some ps =>
        ok <- all_of ps uplink ;;
        if (ok : bool) then
          entry <- look k ls d ;;
          match entry with
          | None => ret false
          | Some f => add FirstWins 0 ls d f
          end
        else ret false
    end.

(** LocalCAS::LocalUplinkBlob, local_cas.tpp:33-80. *)
Fixpoint LocalUplinkBlob (n : nat) (k : nat) (d : id) (x skip_sync splice_result : bool) : M bool :=
  match n with
  | O => ret false
  | S n' =>
      latest <- is_file 0 (blob_slot x) d ;;
      if (latest : bool) then ret true
      else
        p <- (if skip_sync then is_file k (blob_slot x) d else LocalBlobPath k d x) ;;
        if (p : bool) then
          c <- read_file k (blob_slot x) d ;;
          match c with
          | None => ret false
          | Some b => r <- LocalStore 0 (blob_slot x) b ;; ret (is_some r)
          end
        else
          spliced <- LocalTrySplice k SLargeFile d ;;
          match spliced with
          | None => ret false
          | Some b =>
              _ <- LocalUplinkLarge (fun p => LocalUplinkBlob n' k p false true false) k SLargeFile d ;;
              if splice_result then r <- LocalStore 0 (blob_slot x) b ;; ret (is_some r)
              else ret true
          end
  end.

(** Uplinking one entry of a tree, local_cas.tpp:134-158; also for the
    artifacts of cached results, local_ac.tpp:79-116, target_cache.tpp:187-197. *)
Definition uplink_ref (tree : id -> M bool) (k : nat) (t : otype) (d : id) : M bool :=
  if IsTreeObject t then tree d
  else LocalUplinkBlob fuel k d (IsExecutableObject t) false false.

(** LocalCAS::LocalUplinkGitTree, local_cas.tpp:99-175. *)
Fixpoint LocalUplinkGitTree (n : nat) (k : nat) (d : id) (splice_result : bool) : M bool :=
  match n with
  | O => ret false
  | S n' =>
      latest <- is_file 0 STree d ;;
      if (latest : bool) then ret true
      else
        c <- read_file k STree d ;;
        sp <- (match c with Some _ => ret None | None => LocalTrySplice k SLargeTree d end) ;;
        match (match c with Some b => Some b | None => sp end) with
        | None => ret false
        | Some b =>
            match ReadTreeData b d with
            | None => ret false
            | Some es =>
                ok <- all_of es (fun e =>
                        uplink_ref (fun i => LocalUplinkGitTree n' k i false) k (fst (snd e)) (fst e)) ;;
                if (ok : bool) then
                  if is_some sp then
                    _ <- LocalUplinkLarge (fun p => LocalUplinkBlob fuel k p false true false) k SLargeTree d ;;
                    if splice_result then r <- LocalStore 0 STree b ;; ret (is_some r)
                    else ret true
                  else r <- LocalStore 0 STree b ;; ret (is_some r)
                else ret false
            end
        end
  end.

(** *** All generations (LocalCAS<true> with its GlobalUplinker) *)

(** GlobalUplinker::UplinkBlob, UplinkTree, UplinkLargeBlob, uplinker.cpp:48-88. *)
Definition UplinkBlob (d : id) (x : bool) : M bool :=
  generations (fun k => LocalUplinkBlob fuel k d x true true).
Definition UplinkTree (d : id) : M bool :=
  generations (fun k => LocalUplinkGitTree fuel k d true).
Definition UplinkLargeBlob (d : id) : M bool :=
  generations (fun k =>
    LocalUplinkLarge (fun p => LocalUplinkBlob fuel k p false true false) k SLargeFile d).

(** The exists callback, MakeUplinker, local_cas.hpp:292-314. *)
Definition exists_callback (s : slot) (d : id) : M bool :=
  match s with
  | STree => UplinkTree d
  | SExec => UplinkBlob d true
  | _ => UplinkBlob d false
  end.

(** ObjectCAS::StoreBlob, object_cas.hpp:163-178; the interface functions
    StoreBlob and StoreTree, local_cas.hpp:98-133. *)
Definition Store (s : slot) (b : bytes) : M (option id) :=
  _ <- note (kind_of s) b ;;
  let i := hash (kind_of s) b in
  e <- exists_callback s i ;;
  if (e : bool) then ret (Some i)
  else ok <- add FirstWins 0 s i (Bytes b) ;; ret (if (ok : bool) then Some i else None).
Definition StoreBlob (b : bytes) (x : bool) : M (option id) := Store (blob_slot x) b.
Definition StoreTree (b : bytes) : M (option id) := Store STree b.

(** LocalCAS::BlobPathNoSync, BlobPath, TrySyncBlob, TreePath,
    local_cas.hpp:140-157, 187-190, 320-328: [true] means that the path of the
    object in the youngest generation is returned. *)
Definition BlobPathNoSync (d : id) (x : bool) : M bool := exists_callback (blob_slot x) d.
Definition BlobPath (d : id) (x : bool) : M bool :=
  p <- BlobPathNoSync d x ;;
  if (p : bool) then ret true
  else
    s <- BlobPathNoSync d (negb x) ;;
    if (s : bool) then
      c <- read_file 0 (blob_slot (negb x)) d ;;
      match c with
      | None => ret false
      | Some b =>
          r <- StoreBlob b x ;;
          if is_some r then BlobPathNoSync d x else ret false
      end
    else ret false.
Definition TreePath (d : id) : M bool := exists_callback STree d.

(** Reading an object through its path. *)
Definition ReadBlob (d : id) (x : bool) : M (option bytes) :=
  p <- BlobPath d x ;; if (p : bool) then read_file 0 (blob_slot x) d else ret None.
Definition ReadTree (d : id) : M (option bytes) :=
  p <- TreePath d ;; if (p : bool) then read_file 0 STree d else ret None.

(** *** Large objects; with uplinking (LargeObjectCAS<true>, [None]) or for a
    single generation ([Some k]) *)
Definition mode := option nat.
Definition place (m : mode) : nat := match m with None => 0 | Some k => k end.

(** LargeObjectCAS::GetEntryPath and ReadEntry, large_object_cas.tpp:40-95; in
    the native protocol also trees use UplinkLargeBlob. *)
Definition GetEntryPath (m : mode) (ls : slot) (d : id) : M bool :=
  e <- is_file (place m) ls d ;;
  if (e : bool) then ret true
  else match m with
       | Some _ => ret false
       | None =>
           u <- UplinkLargeBlob d ;;
           if (u : bool) then is_file 0 ls d else ret false
       end.
Definition ReadEntry (m : mode) (ls : slot) (d : id) : M (option (list id)) :=
  p <- GetEntryPath m ls d ;;
  if (p : bool) then LocalReadEntry (place m) ls d else ret None.

(** LargeObjectCAS::WriteEntry, large_object_cas.tpp:98-124; store mode in
    large_object_cas.hpp:154-155. *)
Definition WriteEntry (m : mode) (ls : slot) (d : id) (parts : list id) : M bool :=
  p <- GetEntryPath m ls d ;;
  if (p : bool) then ret true
  else if length parts <? 2 then ret false
  else add (match m with None => LastWins | Some _ => FirstWins end) (place m) ls d (Parts parts).

Definition cas_store (m : mode) (s : slot) (b : bytes) : M (option id) :=
  match m with None => Store s b | Some k => LocalStore k s b end.
Definition cas_path (m : mode) (s : slot) (d : id) : M bool :=
  match m with None => exists_callback s d | Some k => is_file k s d end.

(** The loop storing the chunks, large_object_cas.tpp:158-173. *)
Fixpoint store_chunks (m : mode) (cs : list bytes) : M (option (list id)) :=
  match cs with
  | [] => ret (Some [])
  | c :: r =>
      p <- cas_store m SFile c ;;
      match p with
      | None => ret None
      | Some i =>
          ps <- store_chunks m r ;;
          ret (match ps with Some l => Some (i :: l) | None => None end)
      end
  end.

(** The file to be split, large_object_cas.tpp:134-152. *)
Definition split_source (m : mode) (ls : slot) (d : id) : M (option bytes) :=
  match ls with
  | SLargeTree =>
      p <- cas_path m STree d ;;
      if (p : bool) then read_file (place m) STree d else ret None
  | _ =>
      p <- cas_path m SFile d ;;
      if (p : bool) then read_file (place m) SFile d
      else
        q <- cas_path m SExec d ;;
        if (q : bool) then read_file (place m) SExec d else ret None
  end.

(** LargeObjectCAS::Split, large_object_cas.tpp:127-182. *)
Definition Split (m : mode) (ls : slot) (d : id) : M (option (list id)) :=
  e <- ReadEntry m ls d ;;
  match e with
  | Some parts => ret (Some parts)
  | None =>
      src <- split_source m ls d ;;
      match src with
      | None => ret None
      | Some b =>
          open <- attempt ;;
          if (open : bool) then
            ps <- store_chunks m (chunker b) ;;
            match ps with
            | None => ret None
            | Some parts =>
                finished <- attempt ;;
                if (finished : bool) then
                  _ <- WriteEntry m ls d parts ;; ret (Some parts)
                else ret None
            end
          else ret None
      end
  end.

(** LocalCAS::CheckTreeInvariant, local_cas.tpp:287-341: [true] means that no
    error is reported. *)
Definition check_item (j : id) (t : otype) : M bool :=
  if IsTreeObject t then
    e <- GetEntryPath None SLargeTree j ;; if (e : bool) then ret true else TreePath j
  else
    e <- GetEntryPath None SLargeFile j ;; if (e : bool) then ret true else BlobPath j (IsExecutableObject t).
Definition CheckTreeInvariant (d : id) (b : bytes) : M bool :=
  match ReadTreeData b d with
  | None => ret false
  | Some es => all_of es (fun e => all_of (fst (snd e) :: snd (snd e)) (check_item (fst e)))
  end.

(** LocalCAS::Splice, local_cas.tpp:358-417, for the CAS [s]. *)
Definition Splice (s : slot) (d : id) (parts : list id) : M (option id) :=
  p <- (match s with STree => TreePath d | SExec => BlobPath d true | _ => BlobPath d false end) ;;
  if (p : bool) then ret (Some d)
  else
    r <- splice (fun q => BlobPath q false) 0 parts ;;
    match r with
    | None => ret None
    | Some b =>
        if String.eqb (hash (kind_of s) b) d then
          ok <- (match s with STree => CheckTreeInvariant d b | _ => ret true end) ;;
          if (ok : bool) then Store s b else ret None
        else ret None
    end.

(** CASContentValidator::Add for a tree,
    execution_api/execution_service/cas_utils.cpp:47-74. *)
Definition AddTree (d : id) (b : bytes) : M bool :=
  ok <- CheckTreeInvariant d b ;;
  if (ok : bool) then
    r <- StoreTree b ;;
    ret (match r with Some i => String.eqb i d | None => false end)
  else ret false.

(** *** Action cache *)

(** LocalAC::LocalUplinkEntry, local_ac.tpp:59-133, with ReadActionKey and
    ReadAction of a single generation, local_ac.tpp:144-193. *)
Definition LocalUplinkAction (k : nat) (a : id) : M bool :=
  latest <- is_file 0 SAction a ;;
  if (latest : bool) then ret true
  else
    e <- look k SAction a ;;
    match e with
    | Some (Key key) =>
        p <- LocalBlobPath k key false ;;
        if (p : bool) then
          c <- read_file k SFile key ;;
          match (match c with Some b => parse_action b | None => None end) with
          | None => ret false
          | Some refs =>
              ok <- all_of refs (fun r =>
                      uplink_ref (fun i => LocalUplinkGitTree fuel k i false) k (fst r) (snd r)) ;;
              if (ok : bool) then
                v <- LocalUplinkBlob fuel k key false false false ;;
                if (v : bool) then
                  f <- look k SAction a ;;
                  match f with
                  | None => ret false
                  | Some x => add FirstWins 0 SAction a x
                  end
                else ret false
              else ret false
          end
        else ret false
    | _ => ret false
    end.

(** LocalAC::StoreResult, local_ac.tpp:31-36, 136-142, 173-177; [b] is the
    serialized result. *)
Definition StoreResult (a : id) (b : bytes) : M bool :=
  k <- StoreBlob b false ;;
  match k with
  | None => ret false
  | Some key => add LastWins 0 SAction a (Key key)
  end.

(** LocalAC::CachedResult, local_ac.tpp:39-54, 144-193: the artifacts named in
    the result. *)
Definition CachedResult (a : id) : M (option (list (otype * id))) :=
  _ <- generations (fun k => LocalUplinkAction k a) ;;
  e <- look 0 SAction a ;;
  match e with
  | Some (Key key) =>
      c <- ReadBlob key false ;;
      ret (match c with Some b => parse_action b | None => None end)
  | _ => ret None
  end.

(** *** Target cache *)

(** TargetCache::LocalUplinkEntry, target_cache.tpp:130-208. *)
Fixpoint LocalUplinkTarget (n : nat) (k : nat) (a : id) : M bool :=
  match n with
  | O => ret false
  | S n' =>
      latest <- is_file 0 STarget a ;;
      if (latest : bool) then ret true
      else
        e <- look k STarget a ;;
        match e with
        | Some (Key key) =>
            p <- LocalBlobPath k key false ;;
            if (p : bool) then
              c <- read_file k SFile key ;;
              match (match c with Some b => parse_target b | None => None end) with
              | None => ret false
              | Some (implied, refs) =>
                  ok1 <- all_of implied (fun i =>
                           if String.eqb i a then ret true else LocalUplinkTarget n' k i) ;;
                  if (ok1 : bool) then
                    ok <- all_of refs (fun r =>
                            uplink_ref (fun i => LocalUplinkGitTree fuel k i false) k (fst r) (snd r)) ;;
                    if (ok : bool) then
                      v <- LocalUplinkBlob fuel k key false false false ;;
                      if (v : bool) then
                        f <- look k STarget a ;;
                        match f with
                        | None => ret false
                        | Some x => add FirstWins 0 STarget a x
                        end
                      else ret false
                    else ret false
                  else ret false
              end
            else ret false
        | _ => ret false
        end
  end.

(** TargetCache::Store after the artifacts were downloaded,
    target_cache.tpp:29-44; [b] is the serialized entry. *)
Definition StoreTarget (a : id) (b : bytes) : M bool :=
  k <- StoreBlob b false ;;
  match k with
  | None => ret false
  | Some key => add LastWins 0 STarget a (Key key)
  end.

(** TargetCache::Read, target_cache.tpp:72-114: the implied targets and the
    artifacts of the entry. *)
Definition ReadTarget (a : id) : M (option (list id * list (otype * id))) :=
  _ <- generations (fun k => LocalUplinkTarget fuel k a) ;;
  e <- look 0 STarget a ;;
  match e with
  | Some (Key key) =>
      c <- ReadBlob key false ;;
      ret (match c with Some b => parse_target b | None => None end)
  | _ => ret None
  end.

(** *** Compactification of the youngest generation

    The tasks run on lists of files found by scanning the directories; which
    files these are, and in which order the tasks run, is left open: the lists
    are arguments. Tasks running at the same time are modelled as running one
    after the other. *)

(** RemoveInvalid, compactifier.cpp:146-208. *)
Definition RemoveInvalid (p : slot * id) : M bool :=
  if valid_name (snd p) then ret true else remove 0 (fst p) (snd p).

(** RemoveSpliced, compactifier.cpp:212-259: [p] is a large entry. *)
Definition remove_if_file (s : slot) (i : id) : M bool :=
  e <- is_file 0 s i ;; if (e : bool) then remove 0 s i else ret true.
Definition RemoveSpliced (p : slot * id) : M bool :=
  e <- is_file 0 (fst p) (snd p) ;;
  if (e : bool) then
    match fst p with
    | SLargeFile => all_of [SFile; SExec] (fun s => remove_if_file s (snd p))
    | SLargeTree => remove_if_file STree (snd p)
    | _ => ret true
    end
  else ret true.

(** SplitLarge, compactifier.cpp:262-308. *)
Definition SplitLarge (p : slot * id) : M bool :=
  c <- read_file 0 (fst p) (snd p) ;;
  match c with
  | None => ret true
  | Some b =>
      let d := hash (kind_of (fst p)) b in
      r <- Split (Some 0) (match fst p with STree => SLargeTree | _ => SLargeFile end) d ;;
      match r with
      | None => ret false
      | Some parts => if length parts <? 2 then ret true else remove 0 (fst p) (snd p)
      end
  end.

(** GarbageCollector::Compactify, garbage_collector.cpp:247-271 (for one hash
    function). [big] are the files reaching the threshold. *)
Definition object_slot (s : slot) : bool :=
  match s with SFile | SExec | STree => true | _ => false end.
Definition large_slot (s : slot) : bool :=
  match s with SLargeFile | SLargeTree => true | _ => false end.
Definition Compactify (files entries big : list (slot * id)) : M bool :=
  a <- all_of (filter (fun p => object_slot (fst p)) files) RemoveInvalid ;;
  if (a : bool) then
    b <- all_of (filter (fun p => large_slot (fst p)) entries) RemoveSpliced ;;
    if (b : bool) then all_of (filter (fun p => object_slot (fst p)) big) SplitLarge
    else ret false
  else ret false.

(** *** Garbage collection *)

(** Renaming the directory of generation [k] to that of the next one, or, for
    the last one, out of the way, garbage_collector.cpp:206-228. *)
Definition move_generation (k : nat) : M bool :=
  access (fun ok σ =>
    if ok then
      (true, mkStore (update_nth k (fun _ => [])
                        (update_nth (S k) (fun _ => gen_at σ k) (gens σ))) (log σ))
    else (false, σ)).

(** The rotation loop, from the oldest generation to the youngest. *)
Definition rotate : M bool :=
  n <- num_generations ;; all_of (rev (seq 0 n)) move_generation.

(** The loop for gc_all, garbage_collector.cpp:182-203. *)
Definition drop_generation (k : nat) : M bool :=
  access (fun ok σ =>
    if ok then (true, mkStore (update_nth k (fun _ => []) (gens σ)) (log σ)) else (false, σ)).
Definition drop_all : M bool :=
  n <- num_generations ;; all_of (rev (seq 0 n)) drop_generation.

(** GarbageCollector::TriggerGarbageCollection, garbage_collector.cpp:71-245,
    without the removal of directories already moved away. *)
Definition TriggerGarbageCollection (no_rotation gc_all : bool)
    (files entries big : list (slot * id)) : M bool :=
  if (no_rotation && gc_all)%bool then ret false
  else if gc_all then drop_all
  else
    c <- Compactify files entries big ;;
    if (c : bool) then (if no_rotation then ret true else rotate) else ret false.

End Storage.
