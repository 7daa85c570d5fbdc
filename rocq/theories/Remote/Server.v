(** Model of the services a server for remote execution offers for its storage:
    src/buildtool/execution_api/execution_service/cas_server.cpp,
    bytestream_server.cpp, cas_utils.cpp, ac_server.cpp.

    A handler asks the storage of Storage/Model.v for operations, one after the
    other. Simplifications: as that model, the native protocol only; failures
    to get the lock of the garbage collector, and failures of temporary files,
    are requests that fail, see [unary] below; where the program only asks for
    the path of an object, the model also reads it. *)
From Coq Require Import String Ascii NArith List Bool Arith.
From Verif Require Import Describe.Model Remote.Names Remote.Stream Remote.Client.
From Verif Require Import GitTree.Model Storage.Model Storage.Spec.
Import ListNotations.
Local Open Scope string_scope.
Local Open Scope list_scope.
Local Open Scope nat_scope.

(** A handler: what it asks the storage, depending on the answers so far. *)
Inductive plan (A : Type) : Type :=
| Done (a : A)
| Ask (o : op) (k : answer -> plan A).
Arguments Done {A}.
Arguments Ask {A}.
Fixpoint then_do {A B} (p : plan A) (f : A -> plan B) : plan B :=
  match p with
  | Done a => f a
  | Ask o k => Ask o (fun r => then_do (k r) f)
  end.

(** [digest->IsTree() ? TreePath(..) : BlobPath(.., false)] and reading that
    file, cas_server.cpp:81-84, 203-217, bytestream_server.cpp:72-91. *)
Definition lookup_of (d : digest) : op :=
  if d_tree d then OReadTree (d_hash d) else OReadBlob (d_hash d) false.
Definition found (r : answer) : option string := match r with ABytes v => v | _ => None end.

(** CASServiceImpl::FindMissingBlobs, cas_server.cpp:41-97; [done] is the
    response so far. *)
Fixpoint server_FindMissingBlobs (q done : list wire_digest) : plan (list wire_digest + code) :=
  match q with
  | [] => Done (inl done)
  | x :: r =>
      match FromBazel GitSHA1 x with
      | None => server_FindMissingBlobs r (done ++ [x])
      | Some d =>
          Ask (lookup_of d) (fun a =>
            server_FindMissingBlobs r (match found a with Some _ => done | None => done ++ [x] end))
      end
  end.

(** The comparison of sizes in CheckDigestConsistency, cas_utils.cpp:161-172. *)
Definition size_consistent (d : digest) (data : string) : bool :=
  N.eqb (d_size d) 0 || N.eqb (d_size d) (N.of_nat (String.length data)).

(** CASContentValidator::Add, cas_utils.cpp:48-76, with CheckDigestConsistency,
    161-182. For trees the check of the entries, the storing and the
    comparison of the hash are [AddTree] in Storage/Model.v. Different errors
    of trees are not distinguished. *)
Definition AddDataToCAS (d : digest) (data : string) : plan code :=
  if d_tree d then
    Ask (OAddTree (d_hash d) data) (fun a =>
      match a with
      | ADone true => Done (if size_consistent d data then OK else Other 3)
      | _ => Done (Other 9)
      end)
  else
    Ask (OStoreBlob data false) (fun a =>
      match a with
      | AId (Some i) => Done (if String.eqb i (d_hash d) && size_consistent d data then OK else Other 3)
      | _ => Done (Other 13)
      end).

(** CASServiceImpl::BatchUpdateBlobs, cas_server.cpp:99-156: the first error
    ends the request. *)
Fixpoint server_BatchUpdateBlobs (q : list (wire_digest * string)) (done : list (wire_digest * code))
    : plan (list (wire_digest * code) + code) :=
  match q with
  | [] => Done (inl done)
  | (x, data) :: r =>
      match FromBazel GitSHA1 x with
      | None => Done (inr (Other 3))
      | Some d =>
          then_do (AddDataToCAS d data) (fun c =>
            match c with
            | OK => server_BatchUpdateBlobs r (done ++ [(x, OK)])
            | _ => Done (inr c)
            end)
      end
  end.

(** CASServiceImpl::BatchReadBlobs, cas_server.cpp:158-222. *)
Fixpoint server_BatchReadBlobs (q : list wire_digest) (done : list (wire_digest * code * string))
    : plan (list (wire_digest * code * string) + code) :=
  match q with
  | [] => Done (inl done)
  | x :: r =>
      match FromBazel GitSHA1 x with
      | None => Done (inr (Other 3))
      | Some d =>
          Ask (lookup_of d) (fun a =>
            server_BatchReadBlobs r
              (done ++ [match found a with Some data => (x, OK, data) | None => (x, Other 5, "") end]))
      end
  end.

(** CASServiceImpl::SplitBlob, cas_server.cpp:234-297, CASUtils::SplitBlobFastCDC,
    cas_utils.cpp:126-137: the digests of the chunks; their sizes are not
    modelled. *)
Definition server_SplitBlob (x : wire_digest) : plan (list wire_digest + code) :=
  match FromBazel GitSHA1 x with
  | None => Done (inr (Other 3))
  | Some d =>
      Ask (if d_tree d then OSplitTree (d_hash d) else OSplitBlob (d_hash d)) (fun a =>
        match a with
        | AParts (Some ps) => Done (inl (map (fun p => ToBazel GitSHA1 (mkDigest p false 0)) ps))
        | _ => Done (inr (Other 5))
        end)
  end.

(** CASServiceImpl::SpliceBlob, cas_server.cpp:299-362, CASUtils::SpliceBlob,
    cas_utils.cpp:139-153; the size in the response is not modelled. *)
Fixpoint all_digests (q : list wire_digest) : option (list digest) :=
  match q with
  | [] => Some []
  | x :: r =>
      match FromBazel GitSHA1 x, all_digests r with
      | Some d, Some ds => Some (d :: ds)
      | _, _ => None
      end
  end.
Definition server_SpliceBlob (x : wire_digest) (chunks : list wire_digest) : plan (wire_digest + code) :=
  match FromBazel GitSHA1 x with
  | None => Done (inr (Other 3))
  | Some d =>
      match all_digests chunks with
      | None => Done (inr (Other 3))
      | Some ps =>
          Ask (if d_tree d then OSpliceTree (d_hash d) (map d_hash ps)
               else OSpliceBlob (d_hash d) (map d_hash ps) false) (fun a =>
            match a with
            | AId (Some i) => Done (inl (ToBazel GitSHA1 (mkDigest i (d_tree d) 0)))
            | _ => Done (inr (Other 9))
            end)
      end
  end.

(** ActionCacheServiceImpl::GetActionResult, ac_server.cpp:30-62: the artifacts
    named in the result. *)
Definition server_GetActionResult (x : wire_digest) : plan (list (otype * id) + code) :=
  match FromBazel GitSHA1 x with
  | None => Done (inr (Other 3))
  | Some d =>
      Ask (OCachedResult (d_hash d)) (fun a =>
        match a with ARefs (Some refs) => Done (inl refs) | _ => Done (inr (Other 5)) end)
  end.

Section Streams.
(** ByteStreamUtils::kChunkSize. *)
Variable chunk_size : nat.

(** BytestreamServiceImpl::Read, bytestream_server.cpp:37-109: the messages and
    the status; the file does not fail to be read. *)
Definition server_Read (name : string) (read_offset : nat) : plan (list string * code) :=
  match read_FromString name with
  | None => Done ([], Other 3)
  | Some q =>
      match FromBazel GitSHA1 (rr_digest q) with
      | None => Done ([], Other 3)
      | Some d =>
          Ask (lookup_of d) (fun a =>
            match found a with
            | None => Done ([], Other 5)
            | Some data => Done (send_all chunk_size (FileSource data (fun _ => true)) read_offset)
            end)
      end
  end.
End Streams.

(** BytestreamServiceImpl::Write, bytestream_server.cpp:111-182: the status and
    the committed size. *)
Definition server_Write (ms : list write_msg) : plan (code * N) :=
  match server_write GitSHA1 ms with
  | None => Done (Other 3, 0%N)
  | Some (d, data) =>
      then_do (AddDataToCAS d data) (fun c =>
        match c with
        | OK => Done (OK, N.of_nat (String.length data))
        | _ => Done (c, 0%N)
        end)
  end.

(** ** A server, its storage, and the connection to it

    Everything that happens in the storage is a list of actions of
    Storage/Spec.v. The surroundings choose what others do before a request is
    handled, what they do while an operation for it runs, and what of the
    connection breaks. *)
Record circumstance := mkCircumstance {
  before : list action;
  (* the connection breaks: the number of messages that pass, and what the
     client is told *)
  broken : option (nat * code);
  writable : nat -> bool
}.
Record world := mkWorld {
  start : list action;
  since : list action;
  requests : list circumstance;
  interleaved : list (list action)
}.
Definition past (w : world) : list action := start w ++ since w.
Definition failure (c : code) : code := match c with OK => UNAVAILABLE | _ => c end.

Section World.
Variable S : config.
(* the number of generations *)
Variable n : nat.
Variable chunk_size : nat.
Variable instance : string.

(** An operation is run; [None]: the server was killed (a garbage collection
    can only happen when no server holds the lock), or the operation did not
    end. *)
Definition ask (o : op) (w : world) : option answer * world :=
  match interleaved w with
  | [] => (None, w)
  | acts :: r =>
      let w' := mkWorld (start w) (since w ++ Start o :: acts) (requests w) r in
      if existsb is_collect acts then (None, w')
      else (match nth_error (threads (reached S n (past w'))) (length (threads (reached S n (past w)))) with
            | Some (_, Ret a) => Some a
            | _ => None
            end, w')
  end.
Fixpoint run_plan {A} (p : plan A) (w : world) : option A * world :=
  match p with
  | Done a => (Some a, w)
  | Ask o k =>
      match ask o w with
      | (Some r, w') => run_plan (k r) w'
      | (None, w') => (None, w')
      end
  end.

(** The circumstances of the next request, and what happens before it. *)
Definition circumstances (w : world) : circumstance :=
  match requests w with
  | c :: _ => c
  | [] => mkCircumstance [] (Some (0, UNAVAILABLE)) (fun _ => false)
  end.
Definition wait (w : world) : world :=
  mkWorld (start w) (since w ++ before (circumstances w)) (tl (requests w)) (interleaved w).

(** A request with one answer. *)
Definition unary {A} (p : plan (A + code)) (w : world) : (A + code) * world :=
  match run_plan p (wait w) with
  | (None, w') => (inr UNAVAILABLE, w')
  | (Some r, w') =>
      (match broken (circumstances w) with Some (_, c) => inr (failure c) | None => r end, w')
  end.

(** The server as the client of Client.v sees it. QueryWriteStatus is not
    implemented, bytestream_server.cpp:184-192. *)
Definition server : remote world :=
  mkRemote world
    (fun q => unary (server_FindMissingBlobs q []))
    (fun q => unary (server_BatchUpdateBlobs q []))
    (fun q => unary (server_BatchReadBlobs q []))
    (fun d w =>
       match run_plan (server_Read chunk_size (read_ToString instance d) 0) (wait w) with
       | (None, w') => (([], UNAVAILABLE), w')
       | (Some sent, w') =>
           (deliver (match broken (circumstances w) with Some (k, c) => Some (k, failure c) | None => None end) sent, w')
       end)
    (fun d w => ((fun i => (writable (circumstances w) i, 0%N)), w))
    (fun d ms w =>
       match broken (circumstances w) with
       | None =>
           match run_plan (server_Write ms) (wait w) with
           | (None, w') => ((UNAVAILABLE, 0%N), w')
           | (Some r, w') => (r, w')
           end
       | Some (k, c) => ((failure c, 0%N), snd (run_plan (server_Write (firstn k ms)) (wait w)))
       end).
End World.
