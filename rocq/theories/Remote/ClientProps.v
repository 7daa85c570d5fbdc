(** C83-C85: finding out what is missing, uploads, and downloads. *)
From Coq Require Import String Ascii NArith List Bool Arith Lia.
From Verif Require Import Describe.Model Remote.Names Remote.NamesSpec Remote.Stream Remote.StreamSpec Remote.StreamProps
  Remote.Client Remote.ClientSpec Remote.ClientProofs Remote.ClientMore.
Import ListNotations.
Local Open Scope string_scope.
Local Open Scope list_scope.
Local Open Scope nat_scope.

(** ** C83 *)

(** C83. The client considers an object to be available only if the remote side
    confirmed it: each digest asked for is reported missing, or the object is
    there. Only digests asked for are reported. This holds for all limits on the
    size of messages, all sizes of messages, numbers of attempts, and failures
    of requests. *)
Theorem C83_missing : forall W C (R : remote W) stored digests w missing w',
  truthful W R stored (hashing C) -> (forall d, In d digests -> wellformed (hashing C) d) ->
  FindMissingBlobs W C R digests w = (missing, w') ->
  (forall d, In d digests ->
     stored w' (w_hash (ToBazel (hashing C) d)) \/ exists d', In d' missing /\ same_object d d') /\
  (forall d, In d missing -> In d digests).
Proof.
  intros W C R stored digests w missing w' T WF E.
  destruct (find_missing_spec W C R stored T digests w missing w' WF E) as (_ & A & B). auto.
Qed.
Print Assumptions C83_missing.

(** C83. If all requests are answered, objects that are there are not reported
    missing, so they are not uploaded again. *)
Theorem C83_exact : forall W C (R : remote W) (stored : W -> string -> Prop) digests w missing w',
  0 < attempts C -> (forall k, request_size C [] + request_size C [(k, "")] <= max_grpc C) ->
  (forall q w, exists m, find_missing R q w = (inl m, w) /\ forall d, In d m -> ~ stored w (w_hash d)) ->
  FindMissingBlobs W C R digests w = (missing, w') ->
  w' = w /\ forall d, In d missing -> ~ stored w (w_hash (ToBazel (hashing C) d)).
Proof. intros W C R stored digests w missing w' AT FIT ANS E. exact (find_missing_exact W C R stored AT FIT ANS digests w missing w' E). Qed.
Print Assumptions C83_exact.

(** ** C84 *)

(** C84. If the client reports that an upload succeeded, all its objects are in
    the remote storage: for all sets of blobs, also those of which the files
    cannot be read or were changed, all limits and sizes of messages, failures,
    partial answers and repetitions. The upload ends. *)
Theorem C84_uploaded : forall W C (R : remote W) stored instance uuid readable fuel skip blobs w r w',
  truthful W R stored (hashing C) -> answers_what_was_asked W R -> instance_name instance -> plain uuid ->
  (forall b, In b blobs -> wellformed (hashing C) (b_digest b)) ->
  UploadBlobs W C R instance uuid readable fuel skip blobs w = (r, w') ->
  (r = Some true -> forall b, In b blobs -> stored w' (w_hash (ToBazel (hashing C) (b_digest b)))) /\
  (length blobs < fuel -> r <> None).
Proof.
  intros W C R stored instance uuid readable fuel skip blobs w r w' T AW HI HU WF E.
  destruct (upload_spec W C R stored T instance uuid HI HU readable AW fuel skip blobs w r w' WF E) as (_ & A & B). auto.
Qed.
Print Assumptions C84_uploaded.

(** C84. An upload to a storage that takes everything succeeds, for all limits
    and sizes of messages, even if blobs cannot be read at once for a message;
    provided that no two blobs have the same digest, or that the client asks
    for missing objects first. *)
Theorem C84_complete_partial : forall W C (R : remote W) instance uuid readable fuel skip blobs w,
  obliging W R C -> 0 < attempts C -> 0 < chunk_size C -> instance_name instance -> plain uuid ->
  (forall b, In b blobs -> intact C b /\ String.length (b_data b) < max_messages C) ->
  (skip = true -> NoDup (map (fun b => (d_hash (b_digest b), d_tree (b_digest b))) blobs)) ->
  length blobs < fuel ->
  fst (UploadBlobs W C R instance uuid readable fuel skip blobs w) = Some true.
Proof.
  intros W C R instance uuid readable fuel skip blobs w O AT CH HI HU HB HD L.
  destruct (upload_done W C R instance uuid readable O AT CH HI HU fuel skip blobs w L HB HD) as (w' & ->). reflexivity.
Qed.
Print Assumptions C84_complete_partial.

(** A storage in memory, used as a witness. *)
Section Toy.
Variable C : setup.
Definition toy : remote (list string) :=
  mkRemote (list string)
    (fun q w => (inl (filter (fun d => negb (existsb (String.eqb (w_hash d)) w)) q), w))
    (fun q w => (inl (map (fun e => (fst e, OK)) q), map (fun e => w_hash (fst e)) q ++ w))
    (fun q w => (inr (Other 12), w))
    (fun d w => (([], Other 12), w))
    (fun d w => ((fun _ => (true, 0%N)), w))
    (fun d ms w => match accepted (hashing C) (hash C) ms with
                   | Some (_, data) => ((OK, N.of_nat (String.length data)), w_hash d :: w)
                   | None => ((Other 3, 0%N), w)
                   end).
Definition toy_stored (w : list string) (h : string) : Prop := In h w.
Lemma toy_truthful : forall t, truthful (list string) toy toy_stored t.
Proof.
  intros t. constructor; cbn.
  - intros q w h H. exact H.
  - intros q w h H. apply in_or_app. now right.
  - intros d w h H. exact H.
  - intros d ms w h H. destruct (accepted (hashing C) (hash C) ms) as [[d' data]|]; cbn; [now right|exact H].
  - intros q w missing w' E. injection E as <- <-. intros d H N.
    destruct (existsb (String.eqb (w_hash d)) w) eqn:X.
    + apply existsb_exists in X. destruct X as (y & Y & Z). apply String.eqb_eq in Z. subst y. exact Y.
    + exfalso. apply N. apply in_map. apply filter_In. rewrite X. auto.
  - intros q w l w' E. injection E as <- <-. intros d H. apply in_map_iff in H. destruct H as (e & X & H). injection X as <-.
    apply in_or_app. left. apply in_map_iff. exists e. auto.
  - intros inst uuid d ms w w' _ _ _ _ E. destruct (accepted (hashing C) (hash C) ms) as [[d' data]|]; [|discriminate E].
    injection E as _ <-. now left.
Qed.
Lemma toy_answers : answers_what_was_asked (list string) toy.
Proof.
  intros q w l w' E. cbn in E. injection E as <- <-. intros d c H. apply in_map_iff in H. destruct H as (e & X & H).
  injection X as <- <-. apply in_map_iff. exists e. auto.
Qed.
Lemma toy_obliging : obliging (list string) toy C.
Proof.
  constructor; cbn; eauto. intros d ms data w _ A. rewrite A. eauto.
Qed.
End Toy.

(** Hash function, limits and blobs for the witnesses. *)
Definition ex_setup : setup :=
  mkSetup GitSHA1 toy_hash (fun es => length es) 3 8 2 4 20.
Definition ex_blob (exec : bool) (data : string) : blob :=
  mkBlob (toy_digest (N.of_nat (String.length data))) exec (MemorySource data).

(** C84. Without asking for missing objects first, an upload of a file and an
    executable with the same content is reported as failed, although both are
    the same object and it was stored. *)
Theorem C84_same_content_refuted :
  exists blobs w', (forall b, In b blobs -> intact ex_setup b) /\
    obliging (list string) (toy ex_setup) ex_setup /\
    (forall b, In b blobs -> toy_stored w' (w_hash (ToBazel GitSHA1 (b_digest b)))) /\
    UploadBlobs (list string) ex_setup (toy ex_setup) "main" "u1" (fun _ => true) 9 true blobs [] = (Some false, w').
Proof.
  exists [ex_blob false "ab"; ex_blob true "ab"]. exists [String.append "62" (toy_hash false "ab"); String.append "62" (toy_hash false "ab")].
  split; [|split; [apply toy_obliging|split; [|vm_compute; reflexivity]]].
  - intros b [<-|[<-|[]]]; repeat split; vm_compute; reflexivity.
  - intros b [<-|[<-|[]]]; vm_compute; auto.
Qed.
Print Assumptions C84_same_content_refuted.

(** C84. The client counts answers: a storage that confirms digests it was not
    asked for makes it report success although nothing was stored, and for two
    blobs makes it repeat the upload for ever. *)
Definition alien : remote (list string) :=
  mkRemote (list string)
    (fun q w => (inl q, w))
    (fun q w => (inl [(mkWire "00" 0, OK)], w))
    (fun q w => (inr (Other 12), w)) (fun d w => (([], Other 12), w))
    (fun d w => ((fun _ => (true, 0%N)), w)) (fun d ms w => ((Other 12, 0%N), w)).
Theorem C84_unasked_refuted :
  (exists b, UploadBlobs (list string) ex_setup alien "main" "u1" (fun _ => true) 9 true [b] [] = (Some true, [])) /\
  (exists b1 b2, forall fuel,
     UploadBlobs (list string) ex_setup alien "main" "u1" (fun _ => true) fuel true [b1; b2] [] = (None, [])).
Proof.
  split; [exists (ex_blob false "ab"); vm_compute; reflexivity|].
  exists (ex_blob false "ab"), (ex_blob true "ab").
  assert (X : forall fuel, BatchUpdateBlobs (list string) ex_setup alien "main" "u1" (fun _ => true) fuel
    [ex_blob false "ab"; ex_blob true "ab"] [] = (None, [])).
  { induction fuel as [|f IH]; [reflexivity|]. cbn [BatchUpdateBlobs length].
    assert (U : update_loop (list string) ex_setup alien (fun _ => true) 2 [ex_blob false "ab"; ex_blob true "ab"] [] [] =
      ([mkWire "00" 0], [])) by (vm_compute; reflexivity).
    rewrite U. cbn [Nat.eqb length].
    assert (F : filter (fun b => negb (existsb (same_wire (wire ex_setup (b_digest b))) [mkWire "00" 0]))
      [ex_blob false "ab"; ex_blob true "ab"] = [ex_blob false "ab"; ex_blob true "ab"]) by (vm_compute; reflexivity).
    rewrite F, IH. reflexivity. }
  intros fuel. unfold UploadBlobs, DoUploadBlobs.
  assert (L : upload_large (list string) ex_setup alien "main" "u1" [ex_blob false "ab"; ex_blob true "ab"] [] = (true, []))
    by (vm_compute; reflexivity).
  assert (F : filter (small ex_setup) [ex_blob false "ab"; ex_blob true "ab"] = [ex_blob false "ab"; ex_blob true "ab"])
    by (vm_compute; reflexivity).
  rewrite L, F, X. reflexivity.
Qed.
Print Assumptions C84_unasked_refuted.

(** Uploads of three blobs, one too large for a message, one that cannot be
    read at once; and a truthful storage. *)
Definition ex_hash (tree : bool) (s : string) : string :=
  match s with
  | "ab" => "0123456789abcdef0123456789abcdef01234567"
  | "abc" => "1123456789abcdef0123456789abcdef01234567"
  | _ => "2123456789abcdef0123456789abcdef01234567"
  end.
Definition ex_setup2 : setup := mkSetup GitSHA1 ex_hash (fun es => length es) 3 8 2 4 20.
Definition ex_blob2 (data : string) : blob :=
  mkBlob (mkDigest (ex_hash false data) false (N.of_nat (String.length data))) false (MemorySource data).
Example C84_nonvacuous :
  let blobs := [ex_blob2 "ab"; ex_blob2 "abc"; ex_blob2 "abcdefgh"] in
  truthful (list string) (toy ex_setup2) toy_stored GitSHA1 /\ answers_what_was_asked (list string) (toy ex_setup2) /\
  obliging (list string) (toy ex_setup2) ex_setup2 /\
  (forall b, In b blobs -> intact ex_setup2 b /\ String.length (b_data b) < max_messages ex_setup2) /\
  NoDup (map (fun b => (d_hash (b_digest b), d_tree (b_digest b))) blobs) /\
  length (snd (UploadBlobs (list string) ex_setup2 (toy ex_setup2) "main" "u1"
    (fun b => negb (String.eqb (b_data b) "abc")) 9 true blobs [])) = 3.
Proof.
  split; [apply toy_truthful|]. split; [apply toy_answers|]. split; [apply toy_obliging|]. split.
  - intros b [<-|[<-|[<-|[]]]]; (split; [repeat split; vm_compute; reflexivity|vm_compute; lia]).
  - split; [|vm_compute; reflexivity].
    repeat constructor; cbn; intuition congruence.
Qed.

Example C83_nonvacuous :
  FindMissingBlobs (list string) ex_setup2 (toy ex_setup2)
    [b_digest (ex_blob2 "ab"); b_digest (ex_blob2 "abc")] [String.append "62" (ex_hash false "ab")] =
  ([b_digest (ex_blob2 "abc")], [String.append "62" (ex_hash false "ab")]).
Proof. vm_compute. reflexivity. Qed.

(** ** C85 *)

(** C85. Whatever the remote side sends: the blobs read are, in order, those for
    some of the digests asked for, and each has the hash of its digest. *)
Theorem C85_read : forall W C (R : remote W) digests w blobs w',
  ReadOrdered W C R digests w = (blobs, w') ->
  exists found, subsequence found digests /\
    Forall2 (fun d b => same_object d (b_digest b) /\ hash C (d_tree d) (b_data b) = d_hash d) found blobs.
Proof.
  intros W C R digests w blobs w' E. destruct (ordered_true W C R digests w blobs w' E) as (ds & S & F). exists ds.
  split; [exact S|]. clear - F. induction F as [|d b ds bs [[A B] [D _]] _ IH]; constructor; [|exact IH].
  split; [now split|]. congruence.
Qed.
Print Assumptions C85_read.

(** C85. The same for a single object. *)
Theorem C85_read_single : forall W C (R : remote W) d w b w',
  ReadSingleBlob W C R d w = (Some b, w') ->
  same_object d (b_digest b) /\ hash C (d_tree d) (b_data b) = d_hash d.
Proof.
  intros W C R d w b w' E. destruct (single_true W C R d w b w' E) as [[A _] [B D]]. split; [now split|congruence].
Qed.
Print Assumptions C85_read_single.

(** C85. All objects asked for are read if the remote side has them and answers,
    for all limits and sizes of messages. *)
Theorem C85_complete : forall W C (R : remote W) content digests w,
  0 < attempts C -> 0 < chunk_size C ->
  (forall q w, exists w', batch_read R q w = (inl (map (fun k => (k, OK, content (w_hash k))) q), w')) ->
  (forall k w, exists w', stream_read R k w =
     (send_all (chunk_size C) (FileSource (content (w_hash k)) (fun _ => true)) 0, w')) ->
  (forall d, In d digests ->
     wellformed (hashing C) d /\ hash C (d_tree d) (content (w_hash (ToBazel (hashing C) d))) = d_hash d) ->
  length (fst (ReadOrdered W C R digests w)) = length digests.
Proof.
  intros W C R content digests w AT CK BR SR TH. destruct (ReadOrdered W C R digests w) as [bs w'] eqn:E.
  exact (ordered_got W C R (fun k => content (w_hash k)) AT CK BR SR (fun k k' H => f_equal content H) digests w bs w' E TH).
Qed.
Print Assumptions C85_complete.

(** C85. What is written to an output without being kept is not compared with
    the digest. *)
Theorem C85_dump_refuted : exists hash d arrived,
  client_dump arrived = ("wrong", true) /\ hash (d_tree d) "wrong" <> d_hash d /\ client_read hash d arrived = None.
Proof.
  exists ex_hash, (mkDigest (ex_hash false "ab") false 2), (["wro"; "ng"], OK).
  repeat split; vm_compute; congruence.
Qed.
Print Assumptions C85_dump_refuted.

(** A storage that answers with the data of another object: the wrong data are
    not used. The first of three objects is the only one with its content. *)
Definition confused : remote unit :=
  mkRemote unit
    (fun q w => (inl q, w)) (fun q w => (inr (Other 12), w))
    (fun q w => (inl (map (fun k => (k, OK, "ab")) q), w))
    (fun d w => ((["ab"], OK), w))
    (fun d w => ((fun _ => (true, 0%N)), w)) (fun d ms w => ((Other 12, 0%N), w)).
Example C85_nonvacuous :
  map b_data (fst (ReadOrdered unit ex_setup2 confused
    [b_digest (ex_blob2 "abc"); b_digest (ex_blob2 "ab"); b_digest (ex_blob2 "abcdefghijkl")] tt)) = ["ab"].
Proof. vm_compute. reflexivity. Qed.
