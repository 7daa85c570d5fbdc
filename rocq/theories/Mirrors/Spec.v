(** What is expected of the order in which places are tried and of repeated
    attempts. *)
From Coq Require Import String NArith List Bool Permutation.
From Verif Require Import Mirrors.Model.
Import ListNotations.
Open Scope string_scope.
Open Scope list_scope.

(** Position of the first occurrence of [x]; the length if there is none. *)
Fixpoint pos (x : string) (l : list string) : nat :=
  match l with
  | [] => 0
  | y :: l' => if string_dec x y then 0 else S (pos x l')
  end.

Section Order.
Variable hostname : string -> option string.

(** How much a place is preferred: the position of its host in the list of
    preferred hosts.  Places without a host, or with a host not in the list,
    come last; unless the empty name is in the list, which stands for them. *)
Definition rank (hs : list string) (place : string) : nat :=
  match hostname place with
  | Some h => if in_dec string_dec h hs then pos h hs else pos "" hs
  | None => pos "" hs
  end.

(** [l] consists of the places [given], the preferred ones first, and in the
    order given for places that are equally preferred. *)
Record by_preference (hs given l : list string) : Prop := {
  same_places : Permutation given l;
  preferred_first : forall a x b y c,
      l = a ++ x :: b ++ y :: c -> rank hs x <= rank hs y;
  order_kept : forall r,
      filter (fun p => Nat.eqb (rank hs p) r) l =
      filter (fun p => Nat.eqb (rank hs p) r) given
}.
End Order.

(** The local mirrors set in the configuration for a URL: a list of strings. *)
Definition local_for (M : Mirrors) (url : string) (l : list string) : Prop :=
  exists m, local_mirrors M = JObject m /\ NoDup (map fst m) /\
    In (url, JArray (map JString l)) m.

(** The preferred hosts set in the configuration: a list of strings. *)
Definition preferred (M : Mirrors) (hs : list string) : Prop :=
  preferred_hostnames M = JArray (map JString hs).

(** The strings of a list of values. *)
Inductive strings_of : list json -> list string -> Prop :=
| so_nil : strings_of [] []
| so_string s l r : strings_of l r -> strings_of (JString s :: l) (s :: r)
| so_other v l r :
    (forall s, v <> JString s) -> strings_of l r -> strings_of (v :: l) r.

(** [d] is what the first place that delivers anything delivers. *)
Definition first_delivered {A} (download : string -> option A)
    (places : list string) (d : A) : Prop :=
  exists before p after,
    places = before ++ p :: after /\
    (forall q, In q before -> download q = None) /\
    download p = Some d.

(** The content is the one asked for. *)
Definition right_content (sha256 sha512 hash : string -> string)
    (a : Archive) (d : string) : Prop :=
  hash d = a_content a /\
  (forall s, a_sha256 a = Some s -> sha256 d = s) /\
  (forall s, a_sha512 a = Some s -> sha512 d = s).

Definition calls (es : list event) : list response :=
  flat_map (fun e => match e with Call r => [r] | Sleep _ => [] end) es.
Definition sleeps (es : list event) : list N :=
  flat_map (fun e => match e with Sleep n => [n] | Call _ => [] end) es.
