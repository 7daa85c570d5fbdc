(** Vocabulary for the statements about clients of a remote storage. *)
From Coq Require Import String Ascii NArith List Bool.
From Verif Require Import Describe.Model Remote.Names Remote.NamesSpec Remote.Stream Remote.StreamSpec Remote.Client.
Import ListNotations.
Local Open Scope string_scope.
Local Open Scope list_scope.

Section Servers.
Variable W : Type.
Variable R : remote W.
(** [stored w h]: in state [w] the remote side has the object with (tagged)
    hash [h]. *)
Variable stored : W -> string -> Prop.
Definition keeps (w w' : W) : Prop := forall h, stored w h -> stored w' h.

(** A storage one can rely on: it loses nothing while the client works, and
    what it says is true. Any request may fail, may be answered after a delay
    during which others store something, and may be answered in part. [t] is
    the hash type both sides use. *)
Record truthful (t : hash_type) : Prop := {
  keeps_find : forall q w, keeps w (snd (find_missing R q w));
  keeps_update : forall q w, keeps w (snd (batch_update R q w));
  keeps_open : forall d w, keeps w (snd (stream_open R d w));
  keeps_write : forall d ms w, keeps w (snd (stream_write R d ms w));
  (* what is asked for and not reported missing is there *)
  says_missing : forall q w missing w', find_missing R q w = (inl missing, w') ->
    forall d, In d q -> ~ In (w_hash d) (map w_hash missing) -> stored w' (w_hash d);
  (* what is reported as stored is there *)
  says_updated : forall q w l w', batch_update R q w = (inl l, w') ->
    forall d, In (d, OK) l -> stored w' (w_hash d);
  (* what is reported as written completely is there, if the messages were
     for this object *)
  says_written : forall inst uuid d ms w w', instance_name inst -> plain uuid -> wellformed t d ->
    (forall m, In m ms -> m_name m = write_ToString inst uuid (ToBazel t d)) ->
    stream_write R (ToBazel t d) ms w = ((OK, d_size d), w') -> stored w' (w_hash (ToBazel t d))
}.

(** The answer to an upload of several objects is about these objects. *)
Definition answers_what_was_asked : Prop :=
  forall q w l w', batch_update R q w = (inl l, w') ->
  forall d c, In (d, c) l -> In (w_hash d) (map (fun e => w_hash (fst e)) q).

(** A storage that takes everything that is right, at once. *)
Definition genuine (C : setup) (e : wire_digest * string) : Prop :=
  exists d, wellformed (hashing C) d /\ fst e = ToBazel (hashing C) d /\ digest_of (hash C) d (snd e).
Record obliging (C : setup) : Prop := {
  finds : forall q w, exists missing w', find_missing R q w = (inl missing, w');
  updates : forall q w, (forall e, In e q -> genuine C e) ->
    exists w', batch_update R q w = (inl (map (fun e => (fst e, OK)) q), w');
  opens : forall d w i, fst (fst (stream_open R d w) i) = true;
  writes : forall d ms data w, wellformed (hashing C) d -> accepted (hashing C) (hash C) ms = Some (d, data) ->
    exists w', stream_write R (ToBazel (hashing C) d) ms w = ((OK, N.of_nat (String.length data)), w')
}.
End Servers.

(** A blob as the program makes them, unless its file was changed. *)
Definition intact (C : setup) (b : blob) : Prop :=
  wellformed (hashing C) (b_digest b) /\ digest_of (hash C) (b_digest b) (b_data b) /\ always_readable (b_source b).

(** The same object: what is compared is the hash and whether it is a tree. *)
Definition same_object (d d' : digest) : Prop := d_hash d = d_hash d' /\ d_tree d = d_tree d'.

(** [l] results from [l'] by leaving out elements. *)
Inductive subsequence {A} : list A -> list A -> Prop :=
| sub_nil : subsequence [] []
| sub_skip : forall x l l', subsequence l l' -> subsequence l (x :: l')
| sub_take : forall x l l', subsequence l l' -> subsequence (x :: l) (x :: l').
