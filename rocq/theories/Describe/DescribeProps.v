(** Printing and parsing of object infos, artifact descriptions and action descriptions: C40, C46. *)
From Coq Require Import String Ascii List Bool NArith ZArith SpecFloat Sorting.Sorted.
From Verif Require Import Common.Strs Hex.Model Expr.Json Expr.JsonSpec Describe.Model Describe.Spec Describe.Proofs.
Import ListNotations.
Local Open Scope string_scope.

(** C40: reading the printed form [[hash:size:type]] of an object info gives the object info back (the
    mark of a failed action's output is printed, but not read). *)
Theorem C40_info_roundtrip : forall t i, info_ok t i ->
  info_FromString t (info_ToString false i) = Some (mkInfo (i_digest i) (i_type i) false).
Proof. exact info_roundtrip. Qed.
Print Assumptions C40_info_roundtrip.

(** C40: whatever text is read successfully, the result is a valid object info. *)
Theorem C40_info_parsed_valid : forall t s i, info_FromString t s = Some i ->
  info_ok t i /\ i_failed i = false /\ info_FromString t (info_ToString false i) = Some i.
Proof.
  intros t s i H. destruct (info_parsed_ok t s i H) as [H1 H2]. split; [exact H1|]. split; [exact H2|].
  rewrite (info_roundtrip t i H1). destruct i; cbn in *. now subst.
Qed.
Print Assumptions C40_info_parsed_valid.

(** C40: the printed form determines the object info. *)
Theorem C40_info_text_unambiguous : forall t a b, info_ok t a -> info_ok t b ->
  info_ToString false a = info_ToString false b -> a = b.
Proof. exact info_text_inj. Qed.
Print Assumptions C40_info_text_unambiguous.

(** C40: the JSON form of an artifact description is read back as the same description, except that
    the origin repository of a known artifact is not kept; the two have the same identifier. *)
Theorem C40_artifact_roundtrip : forall u64_of_num t a, artifact_ok t a ->
  art_FromJson u64_of_num t (art_ToJson a) = Some (forget_repo a) /\
  forall ndump H, art_id ndump H (forget_repo a) = art_id ndump H a.
Proof.
  intros u t a Ha. split; [now apply art_roundtrip|]. intros. unfold art_id. now rewrite art_json_forget.
Qed.
Print Assumptions C40_artifact_roundtrip.

(** C40: whatever JSON value is read successfully as artifact description gives a valid description,
    which survives being written and read again. *)
Theorem C40_artifact_parsed_valid : forall u64_of_num t j a, (forall n, (u64_of_num n < 2 ^ 64)%N) ->
  art_FromJson u64_of_num t j = Some a ->
  artifact_ok t a /\ art_FromJson u64_of_num t (art_ToJson a) = Some a.
Proof.
  intros u t j a Hu H. destruct (art_parsed_ok u Hu t j a H) as [H1 H2]. split; auto.
  rewrite (art_roundtrip u t a H1). now rewrite H2.
Qed.
Print Assumptions C40_artifact_parsed_valid.

(** C40: descriptions with equal identifiers are equal up to the origin repository, unless the texts of
    these two very descriptions are a collision of the hash function. *)
Theorem C40_artifact_id : forall ndump H t a b, number_text ndump -> artifact_ok t a -> artifact_ok t b ->
  art_id ndump H a = art_id ndump H b ->
  forget_repo a = forget_repo b \/
  (dump ndump (art_ToJson a) <> dump ndump (art_ToJson b) /\
   H (dump ndump (art_ToJson a)) = H (dump ndump (art_ToJson b))).
Proof. exact art_same_id. Qed.
Print Assumptions C40_artifact_id.

(** C46: the JSON form of an action is read back, under the same identifier, as the same action (up to
    the origin repositories of known inputs). *)
Theorem C46_action_roundtrip : forall u64_of_num t a, action_ok t a ->
  action_FromJson u64_of_num t (a_id a) (action_ToJson a) = Some (forget_repos a).
Proof. exact action_roundtrip. Qed.
Print Assumptions C46_action_roundtrip.

(** C46: whatever JSON value is read successfully as action gives a valid action, which survives being
    written and read again. *)
Theorem C46_action_parsed_valid : forall u64_of_num t id desc a, (forall n, (u64_of_num n < 2 ^ 64)%N) ->
  (forall k v, jfind desc k = Some v -> object_sorted v) ->
  action_FromJson u64_of_num t id desc = Some a ->
  action_ok t a /\ a_id a = id /\ action_FromJson u64_of_num t id (action_ToJson a) = Some a.
Proof.
  intros u t id desc a Hu Hs H. destruct (action_parsed_ok u Hu t id desc a Hs H) as (H1 & H2 & H3).
  split; [exact H1|]. split; [exact H3|]. rewrite <- H3, (action_roundtrip u t a H1). now rewrite H2.
Qed.
Print Assumptions C46_action_parsed_valid.

(** C46: different actions have different JSON forms. *)
Theorem C46_action_json_unambiguous : forall t a b, action_ok t a -> action_ok t b -> a_id a = a_id b ->
  action_ToJson a = action_ToJson b -> forget_repos a = forget_repos b.
Proof. exact (action_json_inj (fun _ => 0%N)). Qed.
Print Assumptions C46_action_json_unambiguous.

(** ** Concrete cases *)

Definition ex_hash : string := "e69de29bb2d1d6434b8b29ae775ad8c2e48c5391".
Definition ex_digest : digest := mkDigest ex_hash true 18446744073709551615.
Definition ex_info : object_info := mkInfo ex_digest Tree false.

Lemma hash_ok_b t h : valid_input t h false = true -> hash_ok t h.
Proof. intros H. now apply valid_input_spec in H. Qed.

Example C40_nonvacuous :
  info_ok GitSHA1 ex_info /\
  info_ToString false ex_info = "[e69de29bb2d1d6434b8b29ae775ad8c2e48c5391:18446744073709551615:t]" /\
  artifact_ok GitSHA1 (AKnown ex_digest Tree (Some "repo")) /\
  art_ToJson (ALocal "a/b" "r") <> art_ToJson (AAction "a/b" "r").
Proof.
  assert (D : digest_ok GitSHA1 Tree ex_digest).
  { split; [apply hash_ok_b; reflexivity|]. split; [reflexivity|]. split; auto. }
  split; [exact D|]. split; [reflexivity|]. split; [exact D|]. discriminate.
Qed.

(** The reader is lenient: white space, signs, text after the number, unknown types, a missing bracket
    and any text behind it are accepted; the printed form without size is not. *)
Example C40_lenient :
  info_FromString GitSHA1 (("[" ++ ex_hash ++ ": -1junk:zzz")%string) =
    Some (mkInfo (mkDigest ex_hash false 18446744073709551615) File false) /\
  info_FromString GitSHA1 (info_ToString true ex_info) = None /\
  info_FromString GitSHA1 (("[" ++ ex_hash ++ ":18446744073709551616:f]")%string) = None.
Proof. repeat split; reflexivity. Qed.

Definition ex_action : action :=
  mkAction "id" ["out"] [] ["sh"; "-c"; "x"] "wd" [("A", "1"); ("B", "2")] (Some "ok") true
    (S754_finite false 4503599627370496 (-51)) [("p", "q")]
    [("in", AKnown ex_digest Tree (Some "repo")); ("src", ALocal "f" "r")].

Example C46_nonvacuous : action_ok GitSHA1 ex_action /\
  action_FromJson (fun _ => 0%N) GitSHA1 "id" (action_ToJson ex_action) = Some (forget_repos ex_action) /\
  (forall k v, jfind (action_ToJson ex_action) k = Some v -> object_sorted v).
Proof.
  assert (D : digest_ok GitSHA1 Tree ex_digest).
  { split; [apply hash_ok_b; reflexivity|]. split; [reflexivity|]. split; auto. }
  assert (S2 : forall V (a b : string * V), key_lt a b -> sorted_keys [a; b]) by (intros; repeat constructor; auto).
  split; [|split].
  - split; [discriminate|]. split; [left; discriminate|].
    split; [now apply S2|]. split; [repeat constructor|]. split; [now apply S2|].
    constructor; [exact D|]. constructor; [exact I|constructor].
  - reflexivity.
  - intros k v H. unfold jfind in H. apply alookup_In in H. vm_compute in H.
    repeat (destruct H as [H|H]; [injection H as <- <-; try exact I; cbn [object_sorted]; try (now apply S2); repeat constructor|]).
    contradiction.
Qed.

(** Without a command there is no way back: tree actions are not read from their JSON form. *)
Example C46_needs_command : action_FromJson (fun _ => 0%N) GitSHA1 "id"
  (action_ToJson (mkAction "id" [] ["d"] [] "" [] None false one [] [])) = None.
Proof. reflexivity. Qed.
