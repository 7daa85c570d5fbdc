(** Model of the client of a remote storage:
    src/buildtool/execution_api/remote/bazel/bazel_cas_client.{hpp,cpp},
    bazel_network.cpp, bazel_network_reader.cpp, with
    src/buildtool/common/remote/retry.cpp and src/utils/cpp/back_map.hpp.

    The remote side, with everything that can happen on the way, is a state of
    type [W] and functions giving the answer to a request and the new state.
    Sets are lists in the order the iteration visits them; the results of the
    functions that return sets are lists as well. Failures to write temporary
    files and exceptions (out of memory) are left out. *)
From Coq Require Import String Ascii NArith List Bool Arith.
From Verif Require Import Describe.Model Remote.Names Remote.Stream.
Import ListNotations.
Local Open Scope string_scope.
Local Open Scope list_scope.
Local Open Scope nat_scope.

(** Equality of [bazel_re::Digest] in sets, bazel_types.hpp:99-106, and of
    [ArtifactDigest], artifact_digest.hpp:51-53: the size does not matter. *)
Definition same_wire (a b : wire_digest) : bool := String.eqb (w_hash a) (w_hash b).
Definition same_digest (a b : digest) : bool :=
  String.eqb (d_hash a) (d_hash b) && Bool.eqb (d_tree a) (d_tree b).

(** [ArtifactBlob], artifact_blob.hpp; equality in sets, 86-90. The content can
    be in a file, which may have changed since the digest was computed.
    GetContentSize, 98-100, is the size in the digest. *)
Record blob := mkBlob { b_digest : digest; b_exec : bool; b_source : source }.
Definition b_data (b : blob) : string := content_of (b_source b).
Definition GetContentSize (b : blob) : nat := N.to_nat (d_size (b_digest b)).
Definition same_blob (a b : blob) : bool :=
  same_digest (b_digest a) (b_digest b) && Bool.eqb (b_exec a) (b_exec b).

Definition insert {A} (same : A -> A -> bool) (x : A) (l : list A) : list A :=
  if existsb (same x) l then l else l ++ [x].

(** BackMap::Make, back_map.hpp:67-102, GetReference, 123-129: the keys in the
    order of insertion, each with the first value that has it. *)
Definition back_map (K V : Type) := list (K * V).
Definition Make {K V} (same : K -> K -> bool) (conv : V -> K) (values : list V) : back_map K V :=
  fold_left (fun m v => if existsb (fun p => same (conv v) (fst p)) m then m else m ++ [(conv v, v)]) values [].
Definition GetKeys {K V} (m : back_map K V) : list K := map fst m.
Definition GetReference {K V} (same : K -> K -> bool) (m : back_map K V) (k : K) : option V :=
  match find (fun p => same k (fst p)) m with Some p => Some (snd p) | None => None end.
(** GetValues, back_map.hpp:134-144. *)
Definition GetValues {K V} (same : K -> K -> bool) (sameV : V -> V -> bool) (m : back_map K V) (keys : list K) : list V :=
  fold_left (fun r k => match GetReference same m k with Some v => insert sameV v r | None => r end) keys [].

(** The limits and the hash functions in use. [request_size] is the size of a
    message with the given entries, [max_batch] is the limit for the contents
    from the capabilities of the server; [max_grpc] is
    MessageLimits::kMaxGrpcLength; [attempts] comes from the retry options. *)
Record setup := mkSetup {
  hashing : hash_type;
  hash : bool -> string -> string;
  request_size : list (wire_digest * string) -> nat;
  max_grpc : nat;
  max_batch : nat;
  attempts : nat;
  chunk_size : nat;
  (* bounds the number of messages of an upload in the model; the loop of the
     program has no bound *)
  max_messages : nat
}.

(** The remote side. *)
Record remote (W : Type) := mkRemote {
  find_missing : list wire_digest -> W -> (list wire_digest + code) * W;
  batch_update : list (wire_digest * string) -> W -> (list (wire_digest * code) + code) * W;
  batch_read : list wire_digest -> W -> (list (wire_digest * code * string) + code) * W;
  (* a download: the messages that arrive, and the status *)
  stream_read : wire_digest -> W -> (list string * code) * W;
  (* an upload: whether writing the i-th message works, and what
     QueryWriteStatus tells; then the final answer *)
  stream_open : wire_digest -> W -> connection * W;
  stream_write : wire_digest -> list write_msg -> W -> (code * N) * W
}.
Arguments find_missing {W}.
Arguments batch_update {W}.
Arguments batch_read {W}.
Arguments stream_read {W}.
Arguments stream_open {W}.
Arguments stream_write {W}.

Section Client.
Variable W : Type.
Variable C : setup.
Variable R : remote W.
Variable instance uuid : string.

Definition wire (d : digest) : wire_digest := ToBazel (hashing C) d.

(** InitRequest, bazel_cas_client.cpp:50-80: how many of the items go into the
    request. [sent] are the entries so far, [create] gives [None] if the
    content cannot be read. *)
Fixpoint InitRequest {A} (create : A -> option (wire_digest * string)) (content : A -> nat)
    (content_limit : option nat) (items : list A) (sent : list (wire_digest * string)) (size : nat)
    : list (wire_digest * string) * list A :=
  match items with
  | [] => (sent, [])
  | x :: r =>
      match create x with
      | None => (sent, items)
      | Some e =>
          if Nat.ltb (max_grpc C) (request_size C sent + request_size C [e]) then (sent, items)
          else if match content_limit with Some l => Nat.ltb l (size + content x) | None => false end
          then (sent, items)
          else InitRequest create content content_limit r (sent ++ [e]) (size + content x)
      end
  end.

(** WithRetry for a function giving a response, retry.cpp:25-69: [f] gives
    success, or whether to stop trying. *)
Fixpoint WithRetry {A} (n : nat) (f : W -> (A + bool) * W) (w : W) : option A * W :=
  match n with
  | O => (None, w)
  | S n' =>
      match f w with
      | (inl a, w') => (Some a, w')
      | (inr true, w') => (None, w')
      | (inr false, w') => WithRetry n' f w'
      end
  end.

(** A gRPC call that is repeated as in retry.cpp:70-117. *)
Definition grpc_call {A} (call : W -> (A + code) * W) (w : W) : (A + bool) * W :=
  match call w with
  | (inl a, w') => (inl a, w')
  | (inr c, w') =>
      (inr (match c with UNAVAILABLE | DEADLINE_EXCEEDED => false | _ => true end), w')
  end.

(** ProcessBatchResponse, bazel_cas_client.hpp:164-187: [inr exit_retry_loop]
    for the first entry that is not OK. *)
Fixpoint ProcessBatchResponse {A B} (status : A -> code) (get : A -> list B) (l : list A) : list B + bool :=
  match l with
  | [] => inl []
  | x :: r =>
      match status x with
      | OK => match ProcessBatchResponse status get r with inl out => inl (get x ++ out) | inr b => inr b end
      | UNAVAILABLE => inr false
      | _ => inr true
      end
  end.

(** A batch call, bazel_cas_client.cpp:158-208, 473-508. *)
Definition batch_call {A B} (call : W -> (list A + code) * W) (status : A -> code) (get : A -> list B) (w : W)
    : (list B + bool) * W :=
  match call w with
  | (inl l, w') => (ProcessBatchResponse status get l, w')
  | (inr c, w') => (inr (match c with UNAVAILABLE => false | _ => true end), w')
  end.

(** ** Which objects are missing *)

(** BazelCasClient::FindMissingBlobs, bazel_cas_client.cpp:323-417; the loop
    over the keys of the back map. *)
Definition add_known (m : back_map wire_digest digest) (ds : list wire_digest) (result : list digest) : list digest :=
  fold_left (fun acc d =>
    match GetReference same_wire m d with Some v => insert same_digest v acc | None => acc end) ds result.
Fixpoint find_loop (fuel : nat) (m : back_map wire_digest digest) (keys : list wire_digest)
    (result : list digest) (w : W) : list digest * W :=
  match fuel, keys with
  | S f, k :: r =>
      let '(request, rest) := InitRequest (fun d => Some (d, "")) (fun _ => 0) None keys [] 0 in
      match request with
      | [] => find_loop f m r (add_known m [k] result) w
      | _ =>
          let asked := map fst request in
          match WithRetry (attempts C) (grpc_call (find_missing R asked)) w with
          | (Some missing, w') => find_loop f m rest (add_known m missing result) w'
          | (None, w') => find_loop f m rest (add_known m asked result) w'
          end
      end
  | _, _ => (result, w)
  end.
Definition FindMissingBlobs (digests : list digest) (w : W) : list digest * W :=
  let m := Make same_wire wire digests in
  find_loop (length (GetKeys m)) m (GetKeys m) [] w.

(** ** Uploads *)

(** BazelCasClient::UpdateSingleBlob, bazel_cas_client.cpp:220-238, on
    ByteStreamClient::Write. *)
Definition UpdateSingleBlob (b : blob) (w : W) : bool * W :=
  let '(conn, w1) := stream_open R (wire (b_digest b)) w in
  let name := write_ToString instance uuid (wire (b_digest b)) in
  let '(ms, ok) := write_from (chunk_size C) (max_messages C) 0 conn name (GetContentSize b) (b_source b) 0 0 in
  if ok then
    let '((st, committed), w2) := stream_write R (wire (b_digest b)) ms w1 in
    (is_ok st && N.eqb committed (N.of_nat (GetContentSize b)), w2)
  else (false, w1).

(** [std::count_if] over UpdateSingleBlob, bazel_cas_client.cpp:555-559. *)
Fixpoint update_each (blobs : list blob) (w : W) : nat * W :=
  match blobs with
  | [] => (0, w)
  | b :: r =>
      let '(ok, w1) := UpdateSingleBlob b w in
      let '(n, w2) := update_each r w1 in
      ((if ok : bool then S n else n), w2)
  end.

(** The loop of BatchUpdateBlobs, bazel_cas_client.cpp:428-510: the digests
    reported as stored. [readable] tells whether the content of a blob can be
    read. *)
Variable readable : blob -> bool.
Definition update_entry (b : blob) : option (wire_digest * string) :=
  if readable b then Some (wire (b_digest b), b_data b) else None.
Fixpoint update_loop (fuel : nat) (blobs : list blob) (updated : list wire_digest) (w : W)
    : list wire_digest * W :=
  match fuel, blobs with
  | S f, b :: r =>
      let '(request, rest) :=
        InitRequest update_entry GetContentSize (Some (max_batch C)) blobs [] 0 in
      match request with
      | [] => update_loop f r updated w
      | _ =>
          match WithRetry (attempts C)
                  (batch_call (batch_update R request) (fun x : wire_digest * code => snd x)
                     (fun x => [fst x])) w with
          | (Some ds, w') => update_loop f rest (fold_left (fun acc d => insert same_wire d acc) ds updated) w'
          | (None, w') => update_loop f rest updated w'
          end
      end
  | _, _ => (updated, w)
  end.

(** BazelCasClient::BatchUpdateBlobs, bazel_cas_client.cpp:419-562. [None]: the
    recursion did not end within [fuel] calls. [missing] is unsigned in the
    program: it is 0 only if the two numbers are equal. *)
Fixpoint BatchUpdateBlobs (fuel : nat) (blobs : list blob) (w : W) : option nat * W :=
  match fuel with
  | O => (None, w)
  | S f =>
      match blobs with
      | [] => (Some 0, w)
      | _ =>
          let '(updated, w1) := update_loop (length blobs) blobs [] w in
          if Nat.eqb (length blobs) (length updated) then (Some (length updated), w1)
          else match updated with
          | [] => let '(n, w2) := update_each blobs w1 in (Some n, w2)
          | _ =>
              let missing := filter (fun b => negb (existsb (same_wire (wire (b_digest b))) updated)) blobs in
              match BatchUpdateBlobs f missing w1 with
              | (Some n, w2) => (Some (length updated + n), w2)
              | (None, w2) => (None, w2)
              end
          end
      end
  end.

(** BazelNetwork::DoUploadBlobs, bazel_network.cpp:84-112: first the blobs that
    are too large for a message. *)
Fixpoint upload_large (blobs : list blob) (w : W) : bool * W :=
  match blobs with
  | [] => (true, w)
  | b :: r =>
      if Nat.leb (GetContentSize b) (max_grpc C) then upload_large r w
      else match UpdateSingleBlob b w with
           | (true, w1) => upload_large r w1
           | (false, w1) => (false, w1)
           end
  end.
Definition small (b : blob) : bool := Nat.leb (GetContentSize b) (max_grpc C).
Definition DoUploadBlobs (fuel : nat) (blobs : list blob) (w : W) : option bool * W :=
  match blobs with
  | [] => (Some true, w)
  | _ =>
      match upload_large blobs w with
      | (false, w1) => (Some false, w1)
      | (true, w1) =>
          let rest := filter small blobs in
          match BatchUpdateBlobs fuel rest w1 with
          | (Some n, w2) => (Some (Nat.eqb n (length rest)), w2)
          | (None, w2) => (None, w2)
          end
      end
  end.

(** BazelNetwork::UploadBlobs, bazel_network.cpp:114-127. *)
Definition UploadBlobs (fuel : nat) (skip_find_missing : bool) (blobs : list blob) (w : W) : option bool * W :=
  if skip_find_missing then DoUploadBlobs fuel blobs w
  else
    let m := Make same_digest b_digest blobs in
    let '(missing, w1) := FindMissingBlobs (GetKeys m) w in
    DoUploadBlobs fuel (GetValues same_digest same_blob m missing) w1.

(** ** Downloads *)

(** BazelCasClient::ReadSingleBlob, bazel_cas_client.cpp:246-250; the blob has
    the digest asked for, as far as [ArtifactDigest] compares them. The data
    are in a temporary file, which nobody changes. *)
Definition ReadSingleBlob (d : digest) (w : W) : option blob * W :=
  let '(arrived, w') := stream_read R (wire d) w in
  (match client_read (hash C) d arrived with
   | Some data => Some (mkBlob (mkDigest (d_hash d) (d_tree d) (N.of_nat (String.length data))) false (MemorySource data))
   | None => None
   end, w').

(** A blob made from received data, artifact_blob.cpp: its digest is computed. *)
Definition blob_from (is_tree : bool) (data : string) : blob :=
  mkBlob (mkDigest (hash C is_tree data) is_tree (N.of_nat (String.length data))) false (MemorySource data).

(** The loop of BazelCasClient::BatchReadBlobs, bazel_cas_client.cpp:99-218. *)
Fixpoint read_loop (fuel : nat) (m : back_map wire_digest digest) (keys : list wire_digest)
    (result : list blob) (w : W) : list blob * W :=
  match fuel, keys with
  | S f, k :: r =>
      let '(request, rest) :=
        InitRequest (fun d => Some (d, "")) (fun d => N.to_nat (w_size d)) (Some (max_batch C)) keys [] 0 in
      match request with
      | [] =>
          match GetReference same_wire m k with
          | Some d =>
              match ReadSingleBlob d w with
              | (Some b, w') => read_loop f m r (insert same_blob b result) w'
              | (None, w') => read_loop f m r result w'
              end
          | None => read_loop f m r result w
          end
      | _ =>
          match WithRetry (attempts C)
                  (batch_call (batch_read R (map fst request))
                     (fun x : wire_digest * code * string => snd (fst x))
                     (fun x => match GetReference same_wire m (fst (fst x)) with
                               | Some d => [blob_from (d_tree d) (snd x)]
                               | None => []
                               end)) w with
          | (Some bs, w') => read_loop f m rest (fold_left (fun acc b => insert same_blob b acc) bs result) w'
          | (None, w') => read_loop f m rest result w'
          end
      end
  | _, _ => (result, w)
  end.
Definition BatchReadBlobs (digests : list digest) (w : W) : list blob * W :=
  let m := Make same_wire wire digests in
  read_loop (length (GetKeys m)) m (GetKeys m) [] w.

(** BazelNetworkReader::Read, bazel_network_reader.cpp:183-208. *)
Fixpoint read_single_ones (digests : list digest) (single : list blob) (to_batch : list digest) (w : W)
    : list blob * list digest * W :=
  match digests with
  | [] => (single, to_batch, w)
  | d :: r =>
      if N.eqb (d_size d) 0 || Nat.ltb (max_batch C) (N.to_nat (d_size d)) then
        match ReadSingleBlob d w with
        | (Some b, w1) => read_single_ones r (insert same_blob b single) to_batch w1
        | (None, w1) => read_single_ones r single to_batch w1
        end
      else read_single_ones r single (to_batch ++ [d]) w
  end.
Definition Read (digests : list digest) (w : W) : list blob * W :=
  let '(single, to_batch, w1) := read_single_ones digests [] [] w in
  let '(batch, w2) := BatchReadBlobs to_batch w1 in
  (fold_left (fun acc b => insert same_blob b acc) batch single, w2).

(** BazelNetworkReader::ReadOrdered, bazel_network_reader.cpp:210-230. *)
Definition ReadOrdered (digests : list digest) (w : W) : list blob * W :=
  let set := fold_left (fun acc d => insert same_digest d acc) digests [] in
  let '(read, w1) := Read set w in
  let m := Make same_digest b_digest read in
  (flat_map (fun d => match GetReference same_digest m d with Some b => [b] | None => [] end) digests, w1).

End Client.
