(** Object ids on the command line: C137. *)
From Coq Require Import String Ascii List Bool NArith.
From Verif Require Import Common.Strs Hex.Model Expr.Json Describe.Model Describe.Spec Describe.Proofs Describe.Liberal.
Local Open Scope string_scope.

(** An object id as printed is read as the object printed. *)
Theorem C137_printed t i : info_ok t i -> (d_size (i_digest i) < 2 ^ 63)%N ->
  ObjectInfoFromLiberalString t (info_ToString false i) = Some (mkInfo (i_digest i) (i_type i) false).
Proof.
  intros Hi Hn. unfold info_ToString.
  change ("[" ++ d_hash (i_digest i) ++ ":" ++ N_text (d_size (i_digest i)) ++ ":" ++
          String (ToChar (i_type i)) "" ++ "]" ++ (if i_failed i then " FAILED" else ""))
    with ("[" ++ d_hash (i_digest i) ++ ":" ++ N_text (d_size (i_digest i)) ++ ":" ++
          String (ToChar (i_type i)) ("]" ++ (if i_failed i then " FAILED" else ""))).
  destruct Hi as (H & _ & T).
  rewrite (liberal_full t "[" _ _ _ _ H Hn (or_intror eq_refl)).
  destruct i as [[h b n] ty f]. cbn [i_digest i_type d_hash d_tree d_size] in *.
  do 3 f_equal. destruct t, ty, b; cbn [IsTreeAllowed IsTreeObject andb]; try reflexivity; exfalso;
    try (destruct (proj1 T eq_refl); discriminate);
    (assert (X : false = true) by (apply T; auto); discriminate).
Qed.
Print Assumptions C137_printed.

(** Brackets, size and type can be left out: the type is then a file, and the size 0.  For the type
    only the first letter matters. *)
Theorem C137_forms t b h n c ty rest :
  hash_ok t h -> (n < 2 ^ 63)%N -> (b = "" \/ b = "[") ->
  (c = "f"%char /\ ty = File \/ c = "x"%char /\ ty = Executable \/
   c = "t"%char /\ ty = Tree \/ c = "l"%char /\ ty = Symlink) ->
  let tree := match t, ty with GitSHA1, Tree => true | _, _ => false end in
  ObjectInfoFromLiberalString t (b ++ h) = Some (mkInfo (mkDigest h false 0) File false) /\
  ObjectInfoFromLiberalString t (b ++ h ++ ":" ++ N_text n) =
    Some (mkInfo (mkDigest h false n) File false) /\
  ObjectInfoFromLiberalString t (b ++ h ++ "::" ++ String c rest) =
    Some (mkInfo (mkDigest h tree 0) ty false) /\
  ObjectInfoFromLiberalString t (b ++ h ++ ":" ++ N_text n ++ ":" ++ String c rest) =
    Some (mkInfo (mkDigest h tree n) ty false).
Proof.
  intros H Hn Hb Hc tree.
  assert (E : c = ToChar ty) by (intuition (subst; reflexivity)). subst c.
  assert (E : tree = (IsTreeAllowed t && IsTreeObject ty)%bool) by (unfold tree; destruct t, ty; reflexivity).
  rewrite E.
  split; [exact (liberal_hash_only t b h H Hb)|].
  split; [exact (liberal_no_type t b h n H Hn Hb)|].
  split; [exact (liberal_no_size t b h ty rest H Hb)|exact (liberal_full t b h n ty rest H Hn Hb)].
Qed.
Print Assumptions C137_forms.

(** Exactly the texts with a hash in front, alone or followed by a colon, are accepted; and this is
    the hash of the object, which is a valid one. *)
Theorem C137_accepted t s :
  (ObjectInfoFromLiberalString t s <> None <->
   exists b h rest, (b = "" \/ b = "[") /\ hash_ok t h /\
     (rest = "" \/ exists r, rest = ":" ++ r) /\ s = (b ++ h ++ rest)%string) /\
  (forall i, ObjectInfoFromLiberalString t s = Some i ->
     info_ok t i /\
     exists b rest, (b = "" \/ b = "[") /\ (rest = "" \/ exists r, rest = ":" ++ r) /\
       s = (b ++ d_hash (i_digest i) ++ rest)%string).
Proof.
  assert (P : forall i, ObjectInfoFromLiberalString t s = Some i ->
     info_ok t i /\
     exists b rest, (b = "" \/ b = "[") /\ (rest = "" \/ exists r, rest = ":" ++ r) /\
       s = (b ++ d_hash (i_digest i) ++ rest)%string).
  { intros i E. destruct (liberal_parsed t s i E) as (H1 & _ & H2). split; [exact H1|exact H2]. }
  split; [|exact P]. split.
  - intro N. destruct (ObjectInfoFromLiberalString t s) as [i|] eqn:E; [|congruence].
    destruct (P i eq_refl) as (H1 & b & rest & Hb & Hr & Es).
    exists b, (d_hash (i_digest i)), rest. split; [exact Hb|]. split; [exact (proj1 H1)|].
    split; [exact Hr|exact Es].
  - intros (b & h & rest & Hb & Hh & Hr & ->).
    destruct (liberal_accepts t b h rest Hh Hb Hr) as (i & E & _). congruence.
Qed.
Print Assumptions C137_accepted.

(** Sizes and types are not checked: an unknown type is taken as file, a size that is no number as 0,
    and a negative one as a very large one. *)
Theorem C137_checked_refuted :
  exists h, hash_ok GitSHA1 h /\
    ObjectInfoFromLiberalString GitSHA1 (h ++ ":12:q") = Some (mkInfo (mkDigest h false 12) File false) /\
    ObjectInfoFromLiberalString GitSHA1 (h ++ ":many:t") = Some (mkInfo (mkDigest h true 0) Tree false) /\
    ObjectInfoFromLiberalString GitSHA1 (h ++ ":-1:f") =
      Some (mkInfo (mkDigest h false (2 ^ 64 - 1)) File false).
Proof.
  exists "0123456789abcdef0123456789abcdef01234567".
  split; [|repeat split; vm_compute; reflexivity].
  split; [reflexivity|]. apply IsHexString_spec. reflexivity.
Qed.
Print Assumptions C137_checked_refuted.

Example C137_nonvacuous :
  info_ok GitSHA1 (mkInfo (mkDigest "0123456789abcdef0123456789abcdef01234567" true 42) Tree true) /\
  ObjectInfoFromLiberalString GitSHA1 "[0123456789abcdef0123456789abcdef01234567:42:t] FAILED" =
    Some (mkInfo (mkDigest "0123456789abcdef0123456789abcdef01234567" true 42) Tree false) /\
  ObjectInfoFromLiberalString GitSHA1 "[0123456789abcdef0123456789abcdef0123456]" = None.
Proof.
  split; [|split; vm_compute; reflexivity].
  split; [split; [reflexivity|apply IsHexString_spec; reflexivity]|].
  split; [reflexivity|]. cbn. intuition.
Qed.
