(** C81, C82: names and digests on the wire; transfers in pieces. *)
From Coq Require Import String Ascii NArith List Bool Arith Lia.
From Verif Require Import Describe.Model Remote.Names Remote.NamesSpec Remote.NamesProofs Remote.Stream
  Remote.StreamSpec Remote.StreamProofs.
Import ListNotations.
Local Open Scope string_scope.
Local Open Scope list_scope.
Local Open Scope nat_scope.

(** ** C81 *)

(** C81. The digest the server reads from a message is the one the client put
    into it. *)
Theorem C81_digest : forall t d, wellformed t d -> FromBazel t (ToBazel t d) = Some d.
Proof. intros t d [V _]. now apply from_to. Qed.
Print Assumptions C81_digest.

(** C81. From the name of a resource to be downloaded the server reads the
    instance name and the digest the client made the name from. *)
Theorem C81_read_name : forall t inst d, instance_name inst -> wellformed t d ->
  exists q, read_FromString (read_ToString inst (ToBazel t d)) = Some q /\
    rr_instance q = inst /\ FromBazel t (rr_digest q) = Some d.
Proof.
  intros t inst d HI HD. eexists. split; [apply read_round_trip|split; [reflexivity|now apply C81_digest]].
  - exact HI.
  - now apply digest_plain.
  - destruct HD as [_ HD]. unfold ToBazel. cbn. eapply N.lt_trans; [exact HD|]. reflexivity.
Qed.
Print Assumptions C81_read_name.

(** C81. Likewise for uploads. *)
Theorem C81_write_name : forall t inst uuid d, instance_name inst -> plain uuid -> wellformed t d ->
  exists q, write_FromString (write_ToString inst uuid (ToBazel t d)) = Some q /\
    wr_instance q = inst /\ wr_uuid q = uuid /\ FromBazel t (wr_digest q) = Some d.
Proof.
  intros t inst uuid d HI HU HD. eexists. split; [apply write_round_trip|repeat split; now apply C81_digest].
  - exact HI.
  - exact HU.
  - now apply digest_plain.
  - destruct HD as [_ HD]. unfold ToBazel. cbn. eapply N.lt_trans; [exact HD|]. reflexivity.
Qed.
Print Assumptions C81_write_name.

(** C81. Different resources have different names, and no name for a download is
    one for an upload. *)
Theorem C81_distinct : forall t inst inst' uuid uuid' d d',
  instance_name inst -> instance_name inst' -> plain uuid -> plain uuid' -> wellformed t d -> wellformed t d' ->
  (read_ToString inst (ToBazel t d) = read_ToString inst' (ToBazel t d') -> inst = inst' /\ d = d') /\
  (write_ToString inst uuid (ToBazel t d) = write_ToString inst' uuid' (ToBazel t d') ->
     inst = inst' /\ uuid = uuid' /\ d = d') /\
  write_FromString (read_ToString inst (ToBazel t d)) = None /\
  read_FromString (write_ToString inst uuid (ToBazel t d)) = None.
Proof.
  intros t inst inst' uuid uuid' d d' HI HI' HU HU' HD HD'. repeat split.
  - destruct (C81_read_name t inst d HI HD) as (q & E & A & B).
    destruct (C81_read_name t inst' d' HI' HD') as (q' & E' & A' & B'). rewrite H in E. congruence.
  - destruct (C81_read_name t inst d HI HD) as (q & E & A & B).
    destruct (C81_read_name t inst' d' HI' HD') as (q' & E' & A' & B'). rewrite H in E. congruence.
  - destruct (C81_write_name t inst uuid d HI HU HD) as (q & E & A & U & B).
    destruct (C81_write_name t inst' uuid' d' HI' HU' HD') as (q' & E' & A' & U' & B'). rewrite H in E. congruence.
  - destruct (C81_write_name t inst uuid d HI HU HD) as (q & E & A & U & B).
    destruct (C81_write_name t inst' uuid' d' HI' HU' HD') as (q' & E' & A' & U' & B'). rewrite H in E. congruence.
  - destruct (C81_write_name t inst uuid d HI HU HD) as (q & E & A & U & B).
    destruct (C81_write_name t inst' uuid' d' HI' HU' HD') as (q' & E' & A' & U' & B'). rewrite H in E. congruence.
  - apply read_not_write; [exact HI|now apply digest_plain].
  - apply write_not_read; [exact HI|exact HU|now apply digest_plain].
Qed.
Print Assumptions C81_distinct.

(** The premise about the end of the instance name is needed: such a name makes
    the server refuse each request. *)
Example C81_trailing_slash :
  read_FromString (read_ToString "main/" (mkWire "abc" 3)) = None /\
  read_FromString (read_ToString "main" (mkWire "abc" 3)) = Some (mkRead "main" (mkWire "abc" 3)).
Proof. split; vm_compute; reflexivity. Qed.

Example C81_nonvacuous :
  instance_name "remote/main" /\ plain "4c2f" /\
  wellformed GitSHA1 (mkDigest "0123456789abcdef0123456789abcdef01234567" true 4424712).
Proof.
  repeat split; try (vm_compute; reflexivity).
  - right. split.
    + intros s' E. apply (f_equal (fun s => rev (list_ascii_of_string s))) in E. rewrite of_app, rev_app_distr in E.
      discriminate E.
    + intros k Hk (b & a & E & _ & _).
      assert (L : In "s"%char (list_ascii_of_string k) -> In "s"%char (list_ascii_of_string "remote/main")).
      { intros Hx. rewrite E, !of_app. apply in_or_app. right. apply in_or_app. now left. }
      cbn in Hk. assert (Hs : In "s"%char (list_ascii_of_string k)).
      { destruct Hk as [<-|[<-|[<-|[<-|[<-|[<-|[<-|[]]]]]]]]; cbn; tauto. }
      apply L in Hs. cbn in Hs. intuition discriminate.
  - discriminate.
  - cbn. intuition discriminate.
Qed.

(** ** C82 *)

(** C82. What the client takes for the content of a resource is its content,
    however the connection fails; also what it writes out without looking at
    the digest. *)
Theorem C82_download : forall k content readable cut, 0 < k -> network_fault cut ->
  let arrived := deliver cut (send_all k (FileSource content readable) 0) in
  (forall hash d x, client_read hash d arrived = Some x -> x = content) /\
  (forall x, client_dump arrived = (x, true) -> x = content).
Proof.
  intros k content readable cut K HC arrived.
  assert (X : forall x, receive (fst arrived) (snd arrived) = (x, true) -> x = content).
  { intros x E. exact (download_intact k K (FileSource content readable) cut x HC E). }
  split; [|exact X]. intros hash d x E. unfold client_read in E.
  destruct (receive (fst arrived) (snd arrived)) as [data ok]. destruct ok; [|discriminate E].
  cbn [andb] in E. destruct (String.eqb (hash (d_tree d) data) (d_hash d)); [|discriminate E].
  injection E as <-. now apply X.
Qed.
Print Assumptions C82_download.

(** C82. If nothing fails, the client gets the content, whatever its size is. *)
Theorem C82_download_complete : forall k content readable hash d, 0 < k ->
  (forall i, readable i = true) -> hash (d_tree d) content = d_hash d ->
  let arrived := deliver None (send_all k (FileSource content readable) 0) in
  client_read hash d arrived = Some content /\ client_dump arrived = (content, true).
Proof.
  intros k content readable hash d K R HD arrived.
  assert (X := download_done k K (FileSource content readable) R). cbn [content_of] in X.
  unfold client_read, client_dump. change arrived with (send_all k (FileSource content readable) 0).
  rewrite X. cbn [andb]. rewrite HD, String.eqb_refl. auto.
Qed.
Print Assumptions C82_download_complete.

(** C82. A server asked for the data from an offset on sends these. *)
Theorem C82_offset : forall k content readable offset, 0 < k -> (forall i, readable i = true) ->
  offset < String.length content ->
  let '(ms, st) := send_all k (FileSource content readable) offset in
  fold_right append "" ms = from_position content offset /\ st = OK.
Proof.
  intros k content readable offset K R HO.
  assert (X := offset_done k K (FileSource content readable) offset R (or_introl HO)).
  destruct (send_all k (FileSource content readable) offset) as [ms st]. apply X.
  unfold content_size. cbn. lia.
Qed.
Print Assumptions C82_offset.

(** C82. Whatever the server reports to have received after failures of the
    connection, each message of an upload holds the data of the content at the
    offset it tells. *)
Theorem C82_positions : forall k fuel conn name size s m, 0 < k ->
  In m (fst (write_from k fuel 0 conn name size s 0 (make_iterator s 0))) ->
  m_data m = substring (m_offset m) (String.length (m_data m)) (content_of s).
Proof.
  intros k fuel conn name size s m K I.
  destruct (write_from k fuel 0 conn name size s 0 (make_iterator s 0)) as [ms ok] eqn:E.
  eapply (write_positions k K); [exact E| |exact I]. right. unfold make_iterator. rewrite Nat.min_0_l. split; [reflexivity|lia].
Qed.
Print Assumptions C82_positions.

(** C82. When the client reports that an upload succeeded, the server has
    accepted an object for the digest announced, and this object has that hash
    and size; even if the file was changed after its digest was computed. If it
    was not, the object is the content unless the hashes collide; with a server
    that does not report partial uploads it is the content in any case. *)
Theorem C82_upload : forall k t hash inst uuid d s conn n lost fuel,
  0 < k -> instance_name inst -> plain uuid -> wellformed t d ->
  network_fault (match lost with Some c => Some (n, c) | None => None end) ->
  let name := write_ToString inst uuid (ToBazel t d) in
  let size := N.to_nat (d_size d) in
  client_write k fuel conn name size s (server_answer t hash n lost) = true ->
  exists data,
    accepted t hash (firstn n (fst (write_from k fuel 0 conn name size s 0 0))) = Some (d, data) /\
    digest_of hash d data /\
    (digest_of hash d (content_of s) ->
       (data = content_of s \/ (data <> content_of s /\ hash (d_tree d) data = hash (d_tree d) (content_of s))) /\
       (no_partial_uploads conn -> data = content_of s)).
Proof.
  intros k t hash inst uuid d s conn n lost fuel K HI HU HD HL name size W.
  unfold client_write in W. unfold make_iterator in W. rewrite Nat.min_0_l in W.
  destruct (write_from k fuel 0 conn name size s 0 0) as [ms ok] eqn:E. cbn [fst].
  destruct ok; [|discriminate W]. cbn [andb] in W. unfold server_answer in W.
  destruct lost as [c|].
  { apply andb_true_iff in W. destruct W as [W _]. destruct c; try discriminate W.
    destruct (HL n OK eq_refl eq_refl). }
  destruct (accepted t hash (firstn n ms)) as [[d' data]|] eqn:A; [|discriminate W].
  apply andb_true_iff in W. destruct W as [_ W]. apply N.eqb_eq in W.
  unfold size in W. rewrite N2Nat.id in W.
  assert (B := A). unfold accepted in B. destruct (server_write t (firstn n ms)) as [[d0 data0]|] eqn:SW; [|discriminate B].
  destruct (consistent t hash d0 data0) eqn:CO; [|discriminate B]. injection B as -> ->.
  assert (SW' := SW). unfold server_write in SW'.
  assert (NM : match firstn n ms with [] => "" | m :: _ => m_name m end = name \/ firstn n ms = []).
  { destruct (firstn n ms) as [|m r] eqn:F; [now right|left].
    apply (write_names k _ _ _ _ _ _ _ _ _ _ E m). apply first_in with n. rewrite F. now left. }
  destruct NM as [NM|NM]; [|rewrite NM in SW'; discriminate SW'].
  rewrite NM in SW'. unfold name in SW'.
  destruct (C81_write_name t inst uuid d HI HU HD) as (q & Q & _ & _ & F). rewrite Q, F in SW'.
  injection SW' as -> CD. exists data. split; [reflexivity|].
  unfold consistent in CO. apply andb_true_iff in CO. destruct CO as [CO _]. apply String.eqb_eq in CO.
  split; [split; [exact CO|congruence]|]. intros [DH DS].
  assert (L : String.length data = String.length (content_of s)) by lia. split.
  - destruct (string_dec data (content_of s)) as [->|NE]; [now left|right]. split; [exact NE|congruence].
  - intros NP. assert (Z : size = content_size s) by (unfold size, content_size; lia). rewrite Z in E.
    destruct (write_data k K _ _ _ _ _ _ _ _ NP E (Nat.le_0_l _)) as (_ & _ & _ & P & _).
    destruct (P n) as (more & M). rewrite CD, rest_0 in M.
    assert (Y : String.length more = 0).
    { apply (f_equal String.length) in M. rewrite length_app_str in M. lia. }
    destruct more; [|discriminate Y]. now rewrite app_str_nil in M.
Qed.
Print Assumptions C82_upload.

(** C82. If nothing fails, an upload succeeds, whatever the size of the content
    is. *)
Theorem C82_upload_complete : forall k t hash inst uuid d s conn n fuel,
  0 < k -> instance_name inst -> plain uuid -> wellformed t d -> digest_of hash d (content_of s) ->
  always_readable s -> (forall i, fst (conn i) = true) -> content_size s < fuel ->
  let name := write_ToString inst uuid (ToBazel t d) in
  let size := N.to_nat (d_size d) in
  let sent := fst (write_from k fuel 0 conn name size s 0 0) in
  List.length sent <= n ->
  client_write k fuel conn name size s (server_answer t hash n None) = true /\
  accepted t hash sent = Some (d, content_of s).
Proof.
  intros k t hash inst uuid d s conn n fuel K HI HU HD [DH DS] R HC HF name size sent HN.
  assert (Z : size = content_size s) by (unfold size, content_size; lia).
  assert (NP : no_partial_uploads conn) by (intros i Hi; rewrite HC in Hi; discriminate Hi).
  destruct (write_done k K fuel 0 conn name size s 0 R HC ltac:(lia) ltac:(lia) ltac:(lia) 0) as [W1 W2].
  unfold client_write, make_iterator. rewrite Nat.min_0_l. subst sent.
  destruct (write_from k fuel 0 conn name size s 0 0) as [ms ok] eqn:E. cbn [fst snd] in *. subst ok. cbn [andb].
  unfold server_answer. rewrite firstn_all2 by exact HN.
  assert (A : accepted t hash ms = Some (d, content_of s)).
  { rewrite Z in E. destruct (write_data k K _ _ _ _ _ _ _ _ NP E (Nat.le_0_l _)) as (more & A & B & _ & D).
    rewrite (B eq_refl), app_str_nil, rest_0 in A.
    unfold accepted, server_write. destruct ms as [|m r] eqn:M; [congruence|].
    rewrite (write_names k _ _ _ _ _ _ _ _ _ _ E m (or_introl eq_refl)).
    destruct (C81_write_name t inst uuid d HI HU HD) as (q & Q & _ & _ & F). fold name in Q. rewrite Q, F, D, A.
    unfold consistent. rewrite DH, String.eqb_refl, DS, N.eqb_refl.
    now destruct (negb (IsNative t) || negb (N.of_nat (String.length (content_of s)) =? 0)%N). }
  rewrite A. unfold size. rewrite DS, !Nat2N.id, N.eqb_refl. auto.
Qed.
Print Assumptions C82_upload_complete.

(** An upload in three pieces, an empty one, and one interrupted. *)
Definition toy_hash (tree : bool) (s : string) : string := "0123456789abcdef0123456789abcdef01234567".
Definition toy_digest (n : N) : digest := mkDigest "0123456789abcdef0123456789abcdef01234567" false n.
Example C82_nonvacuous :
  let name n := write_ToString "main" "u1" (ToBazel GitSHA1 (toy_digest n)) in
  let good : connection := fun _ => (true, 0%N) in
  let bad : connection := fun i => (Nat.ltb i 1, 0%N) in
  client_write 2 10 good (name 5%N) 5 (MemorySource "hello") (server_answer GitSHA1 toy_hash 9 None) = true /\
  map m_data (fst (write_from 2 10 0 good (name 5%N) 5 (MemorySource "hello") 0 0)) = ["he"; "ll"; "o"] /\
  client_write 2 10 good (name 0%N) 0 (MemorySource "") (server_answer GitSHA1 toy_hash 9 None) = true /\
  client_write 2 10 bad (name 5%N) 5 (MemorySource "hello") (server_answer GitSHA1 toy_hash 9 None) = false /\
  send_all 2 (FileSource "hell" (fun _ => true)) 0 = (["he"; "ll"], OK) /\
  wellformed GitSHA1 (toy_digest 5) /\ digest_of toy_hash (toy_digest 5) "hello".
Proof. repeat split; vm_compute; reflexivity. Qed.
