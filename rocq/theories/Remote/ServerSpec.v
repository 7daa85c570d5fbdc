(** Vocabulary for the statements about servers. *)
From Coq Require Import String Ascii NArith List Bool Arith.
From Verif Require Import Describe.Model Remote.Names Remote.Stream Remote.Client Remote.Server.
From Verif Require Import GitTree.Model Storage.Model Storage.Spec.
Import ListNotations.
Local Open Scope list_scope.

Section Statements.
Variable S : config.
Variable n : nat.

(** The hash function of the storage, for blobs and trees. *)
Definition hash_for (tree : bool) (data : string) : string := cfg_hash S (if tree then KTree else KBlob) data.

(** The object a hash in a message stands for. *)
Definition names (h : string) (d : digest) : Prop := FromBazel GitSHA1 (mkWire h (d_size d)) = Some d.

(** The object [d] is in the storage: since the beginning of the session an
    operation of the storage told so. *)
Definition confirmed (first acts : list action) (d : digest) : Prop :=
  exists a b th o r t, acts = a ++ b /\ returned (reached S n (first ++ a)) th o r /\
    told o r t (d_hash d) /\ IsTreeObject t = d_tree d.
Definition in_storage (w : world) (h : string) : Prop :=
  exists d, names h d /\ confirmed (start w) (since w) d.

(** The object was confirmed, and there were fewer garbage collections since
    than there are generations, and none that removes everything. *)
Definition still_there (acts : list action) (d : digest) : Prop :=
  exists first since, acts = first ++ since /\ confirmed first since d /\ collections since < n /\ no_drop since.

(** The entries of an upload a storage has to take: each has the digest
    announced, and what a tree names is there, or comes before it. *)
Definition valid_entry (there : otype -> id -> Prop) (e : wire_digest * string) : Prop :=
  exists d, FromBazel GitSHA1 (fst e) = Some d /\ hash_for (d_tree d) (snd e) = d_hash d /\
    (d_size d = 0%N \/ d_size d = N.of_nat (String.length (snd e))) /\
    (d_tree d = true -> exists es, cfg_parse_tree S (snd e) = Some es /\
       forall i t0 ts t, In (i, (t0, ts)) es -> In t (t0 :: ts) -> there t i).
Definition is_entry (e : wire_digest * string) (t : otype) (i : id) : Prop :=
  exists d, FromBazel GitSHA1 (fst e) = Some d /\ i = d_hash d /\ IsTreeObject t = d_tree d.
Fixpoint valid_upload (there : otype -> id -> Prop) (q : list (wire_digest * string)) : Prop :=
  match q with
  | [] => True
  | e :: r => valid_entry there e /\ valid_upload (fun t i => there t i \/ is_entry e t i) r
  end.

(** [handles p acts r acts']: a server handles a request by [p] when [acts]
    have happened, with the result [r]; then [acts'] have happened. Others can
    do anything meanwhile, except collect garbage. *)
Inductive handles {A} : plan A -> list action -> A -> list action -> Prop :=
| handles_done : forall a acts, handles (Done a) acts a acts
| handles_ask : forall o k acts others r a acts', no_collection others ->
    returned (reached S n (acts ++ Start o :: others)) (length (threads (reached S n acts))) o r ->
    handles (k r) (acts ++ Start o :: others) a acts' ->
    handles (Ask o k) acts a acts'.
End Statements.
