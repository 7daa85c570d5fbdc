(** Model of digests on the wire (src/buildtool/common/bazel_digest_factory.{hpp,cpp},
    artifact_digest_factory.cpp) and of the resource names of the byte stream
    service (src/buildtool/execution_api/common/bytestream_utils.{hpp,cpp}).

    Hashes, hash types and digests, [N_text] for the decimal form of a size and
    [stoul10] for [std::stoul] are those of Describe/Model.v. *)
From Coq Require Import String Ascii NArith List Bool.
From Verif Require Import Describe.Model.
Import ListNotations.
Local Open Scope string_scope.
Local Open Scope list_scope.

(** ** Digests *)

(** [bazel_re::Digest]: a hash and a size. A size is an [int64]; only sizes
    below 2^63 occur, others make [gsl::narrow] in [ToBazel] terminate. *)
Record wire_digest := mkWire { w_hash : string; w_size : N }.

(** [ProtocolTraits::IsNative], protocol_traits.hpp. *)
Definition IsNative (t : hash_type) : bool := match t with GitSHA1 => true | PlainSHA256 => false end.

(** kBlobTag, kTreeTag, kTagLength and Prefix, bazel_digest_factory.hpp:30-32, 68-71. *)
Definition kBlobTag : string := "62".
Definition kTreeTag : string := "74".
Definition kTagLength : nat := 2.
Definition Prefix (hash : string) (is_tree : bool) : string :=
  ((if is_tree then kTreeTag else kBlobTag) ++ hash)%string.

(** ArtifactDigestFactory::ToBazel, artifact_digest_factory.cpp:49-53, with
    BazelDigestFactory::Create, bazel_digest_factory.cpp:22-33. *)
Definition ToBazel (t : hash_type) (d : digest) : wire_digest :=
  mkWire (if IsNative t then Prefix (d_hash d) (d_tree d) else d_hash d) (d_size d).

(** Unprefix, bazel_digest_factory.hpp:73-76, IsPrefixed and ToHashInfo,
    bazel_digest_factory.cpp:35-52. *)
Definition Unprefix (hash : string) : string :=
  substring kTagLength (String.length hash - kTagLength) hash.
Definition IsPrefixed (t : hash_type) (hash : string) : bool :=
  Nat.eqb (String.length hash) (hash_length t + kTagLength).

(** ArtifactDigestFactory::FromBazel, artifact_digest_factory.cpp:38-47, with
    HashInfo::Create, hash_info.cpp:33-41. *)
Definition FromBazel (t : hash_type) (w : wire_digest) : option digest :=
  let prefixed := IsPrefixed t (w_hash w) in
  let hash := if prefixed then Unprefix (w_hash w) else w_hash w in
  let is_tree := prefixed && prefix kTreeTag (w_hash w) in
  if valid_input t hash is_tree then Some (mkDigest hash is_tree (w_size w)) else None.

(** ** Resource names *)

(** SplitRequest, bytestream_utils.cpp:30-52. The loop keeps the start of the
    current fragment and the length read so far; here [cur] is that fragment,
    reversed. After a slash the length is set to 0 and then incremented by the
    loop, so the first character of each fragment but the first is not
    compared with the slash: [check] tells whether the next character is. A
    fragment that would be empty at the end of the name is dropped. *)
Fixpoint split_go (s : list ascii) (cur : list ascii) (check : bool) : list string :=
  match s with
  | [] => match cur with [] => [] | _ => [string_of_list_ascii (rev cur)] end
  | c :: r =>
      if check && Ascii.eqb c "/" then string_of_list_ascii (rev cur) :: split_go r [] false
      else split_go r (c :: cur) true
  end.
Definition SplitRequest (request : string) : list string :=
  split_go (list_ascii_of_string request) [] true.

(** kBlobs, kUploads, kOtherReservedFragments, bytestream_utils.hpp:28-30,
    bytestream_utils.cpp:64-69. *)
Definition kBlobs : string := "blobs".
Definition kUploads : string := "uploads".
Definition kOtherReservedFragments : list string :=
  ["actions"; "actionResults"; "operations"; "capabilities"; "compressed-blobs"].
Definition reserved (f : string) : bool := existsb (String.eqb f) kOtherReservedFragments.

(** ReadRequest::ToString, bytestream_utils.cpp:71-86, on the digest already
    converted. *)
Definition read_ToString (instance : string) (w : wire_digest) : string :=
  ((match instance with
    | EmptyString => kBlobs
    | _ => instance ++ "/" ++ kBlobs
    end) ++ "/" ++ w_hash w ++ "/" ++ N_text (w_size w))%string.

(** WriteRequest::ToString, bytestream_utils.cpp:140-159. *)
Definition write_ToString (instance uuid : string) (w : wire_digest) : string :=
  ((match instance with
    | EmptyString => kUploads
    | _ => instance ++ "/" ++ kUploads
    end) ++ "/" ++ uuid ++ "/" ++ kBlobs ++ "/" ++ w_hash w ++ "/" ++ N_text (w_size w))%string.

(** The search for the fragment [wanted], bytestream_utils.cpp:97-111, 168-182:
    gives the fragments before it and those after it, [None] if it does not
    occur or something not allowed in an instance name occurs first. *)
Fixpoint find_fragment (wanted forbidden : string) (parts : list string) : option (list string * list string) :=
  match parts with
  | [] => None
  | p :: r =>
      if String.eqb p wanted then Some ([], r)
      else if String.eqb p forbidden then None
      else if reserved p then None
      else match find_fragment wanted forbidden r with
           | Some (before, after) => Some (p :: before, after)
           | None => None
           end
  end.

(** The loop writing the instance name, bytestream_utils.cpp:119-125, 196-202. *)
Fixpoint join_instance (parts : list string) : string :=
  match parts with
  | [] => ""
  | [p] => p
  | p :: r => (p ++ "/" ++ join_instance r)%string
  end.

(** ReadRequest::FromString, bytestream_utils.cpp:88-136. *)
Record read_request := mkRead { rr_instance : string; rr_digest : wire_digest }.
Definition read_FromString (request : string) : option read_request :=
  match find_fragment kBlobs kUploads (SplitRequest request) with
  | Some (before, [hash; size]) =>
      match stoul10 size with
      | Some n => Some (mkRead (join_instance before) (mkWire hash n))
      | None => None
      end
  | _ => None
  end.

(** WriteRequest::FromString, bytestream_utils.cpp:161-213. *)
Record write_request := mkWrite { wr_instance : string; wr_uuid : string; wr_digest : wire_digest }.
Definition write_FromString (request : string) : option write_request :=
  match find_fragment kUploads kBlobs (SplitRequest request) with
  | Some (before, [uuid; blobs; hash; size]) =>
      if String.eqb blobs kBlobs then
        match stoul10 size with
        | Some n => Some (mkWrite (join_instance before) uuid (mkWire hash n))
        | None => None
        end
      else None
  | _ => None
  end.
