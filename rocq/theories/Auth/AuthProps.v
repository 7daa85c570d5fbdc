(** Encrypted connections: C144. *)
From Coq Require Import String Bool.
From Verif Require Import Auth.Model.
Local Open Scope string_scope.

(** The text an option contributes. *)
Definition text (f : file) : string := match f with Content s => s | _ => "" end.
(** A certificate and its key: both have content, or none. *)
Definition pair_ok (cert key : file) : Prop := text cert = "" <-> text key = "".

Lemma empty_spec s : empty s = true <-> s = "".
Proof. apply String.eqb_eq. Qed.
Lemma pair_bool a b : Bool.eqb (empty a) (empty b) = true <-> (a = "" <-> b = "").
Proof.
  rewrite <- (empty_spec a), <- (empty_spec b). destruct (empty a), (empty b); cbn; split; intro H; try tauto; try discriminate.
Qed.

Definition unreadable (f : file) : bool := match f with Unreadable => true | _ => false end.
Definition absent (f : file) : bool := match f with NotGiven => true | _ => false end.
Definition void (f : file) : bool := match f with Content c => empty c | _ => false end.
Definition rejected (ca cc ck sc sk : file) : bool :=
  unreadable ca || unreadable cc || unreadable ck || unreadable sc || unreadable sk || void ca ||
  negb (Bool.eqb (empty (text cc)) (empty (text ck))) || negb (Bool.eqb (empty (text sc)) (empty (text sk))).

Lemma build_form ca cc ck sc sk : CreateAuthConfig ca cc ck sc sk =
  if rejected ca cc ck sc sk then None
  else Some (if absent ca && absent cc && absent ck && absent sc && absent sk then None
             else Some (mkTls (text ca) (text cc) (text ck) (text sc) (text sk))).
Proof.
  unfold CreateAuthConfig, Build, rejected.
  destruct ca as [| |c0], cc as [| |c1], ck as [| |c2], sc as [| |c3], sk as [| |c4]; cbn [set_value unreadable void text absent orb andb negb];
  try (change (empty "") with true);
  try (destruct (empty c0)); try (destruct (empty c1)); try (destruct (empty c2)); try (destruct (empty c3)); try (destruct (empty c4)); reflexivity.
Qed.
Lemma unreadable_spec f : unreadable f = false <-> f <> Unreadable.
Proof. destruct f; cbn; split; congruence. Qed.
Lemma void_spec f : void f = false <-> f <> Content "".
Proof.
  destruct f as [| |c]; cbn [void]; try (split; congruence). destruct (empty c) eqn:E.
  - apply empty_spec in E. subst. split; congruence.
  - split; [|reflexivity]. intros _ [= ->]. discriminate.
Qed.
Lemma rejected_spec ca cc ck sc sk : rejected ca cc ck sc sk = false <->
  ca <> Unreadable /\ cc <> Unreadable /\ ck <> Unreadable /\ sc <> Unreadable /\ sk <> Unreadable /\
  ca <> Content "" /\ pair_ok cc ck /\ pair_ok sc sk.
Proof.
  unfold rejected, pair_ok. rewrite !orb_false_iff, !negb_false_iff, !pair_bool, !unreadable_spec, void_spec. tauto.
Qed.

(** The settings are accepted exactly if all files given can be read, that of the certificate authority
    is not empty, and certificates and keys come in pairs. *)
Theorem C144_accepted ca cc ck sc sk :
  CreateAuthConfig ca cc ck sc sk <> None <->
  ca <> Unreadable /\ cc <> Unreadable /\ ck <> Unreadable /\ sc <> Unreadable /\ sk <> Unreadable /\
  ca <> Content "" /\ pair_ok cc ck /\ pair_ok sc sk.
Proof.
  rewrite <- rejected_spec, build_form. destruct (rejected ca cc ck sc sk); split; congruence.
Qed.
Print Assumptions C144_accepted.

(** Whoever gives one of the files gets encrypted connections, as client and as service, with the contents
    of these files, or an error; connections are in the clear only if none is given. *)
Theorem C144_encrypted ca cc ck sc sk auth :
  CreateAuthConfig ca cc ck sc sk = Some auth ->
  if absent ca && absent cc && absent ck && absent sc && absent sk
  then channel_of auth = InsecureChannel /\ service_of auth = InsecureService
  else channel_of auth = SslChannel (text ca) (text ck) (text cc) /\
       exists request, service_of auth = SslService (text ca) (text sk) (text sc) request.
Proof.
  rewrite build_form. destruct (rejected ca cc ck sc sk); [discriminate|]. intros [= <-].
  destruct (absent ca && absent cc && absent ck && absent sc && absent sk); cbn; [now split|].
  split; [reflexivity|now exists false].
Qed.
Print Assumptions C144_encrypted.

(** In particular in just-mr. *)
Theorem C144_encrypted_just_mr ca cc ck auth :
  CreateAuthConfigMr ca cc ck = Some auth ->
  channel_of auth = if absent ca && absent cc && absent ck then InsecureChannel
                    else SslChannel (text ca) (text ck) (text cc).
Proof.
  intro E. apply C144_encrypted in E. cbn [absent] in E. rewrite !andb_true_r in E.
  destruct (absent ca && absent cc && absent ck); apply E.
Qed.
Print Assumptions C144_encrypted_just_mr.

(** A client for which a certificate and a key were given presents them.  Missing: files without content. *)
Theorem C144_presented_partial ca cert key sc sk auth :
  cert <> "" -> CreateAuthConfig ca (Content cert) key sc sk = Some auth ->
  exists k, key = Content k /\ k <> "" /\ channel_of auth = SslChannel (text ca) k cert.
Proof.
  intros NE E. assert (A : CreateAuthConfig ca (Content cert) key sc sk <> None) by congruence.
  apply C144_accepted in A. destruct A as (_ & _ & _ & _ & _ & _ & P & _). unfold pair_ok in P. cbn [text] in P.
  apply C144_encrypted in E. cbn [absent] in E. rewrite andb_false_r in E. cbn [andb] in E. destruct E as [E _].
  destruct key as [| |k]; cbn [text] in P, E; [tauto|tauto|]. exists k. repeat split; [|exact E]. intros ->. tauto.
Qed.
Print Assumptions C144_presented_partial.

(** With two empty files the client has no certificate, and no error is reported. *)
Theorem C144_presented_refuted : exists ca cert key auth,
  cert <> NotGiven /\ key <> NotGiven /\ CreateAuthConfig ca cert key NotGiven NotGiven = Some auth /\
  channel_of auth = SslChannel "authority" "" "".
Proof. exists (Content "authority"), (Content ""), (Content ""). eexists. repeat split; discriminate. Qed.
Print Assumptions C144_presented_refuted.

(** The manual: the certificate of the client must be passed in conjunction with that of the authority.
    This is not checked. *)
Theorem C144_authority_refuted : forall cert key, cert <> "" -> key <> "" ->
  CreateAuthConfig NotGiven (Content cert) (Content key) NotGiven NotGiven =
  Some (Some (mkTls "" cert key "" "")).
Proof.
  intros cert key C K. rewrite build_form. unfold rejected. cbn [unreadable void text orb andb absent].
  apply String.eqb_neq in C, K. unfold empty. rewrite C, K. reflexivity.
Qed.
Print Assumptions C144_authority_refuted.

(** A service that was given the certificate of the authority serves only clients with certificates: not
    so, it asks no client for one. *)
Theorem C144_clients_refuted : forall ca cc ck sc sk auth,
  CreateAuthConfig ca cc ck sc sk = Some auth ->
  match service_of auth with SslService _ _ _ request => request = false | InsecureService => True end.
Proof. intros ca cc ck sc sk [t|] _; exact eq_refl || exact Logic.I. Qed.
Print Assumptions C144_clients_refuted.

Example C144_nonvacuous :
  CreateAuthConfig (Content "A") (Content "B") (Content "C") (Content "D") (Content "E") =
    Some (Some (mkTls "A" "B" "C" "D" "E")) /\
  CreateAuthConfig (Content "A") (Content "B") NotGiven NotGiven NotGiven = None /\
  CreateAuthConfig NotGiven NotGiven NotGiven NotGiven NotGiven = Some None /\
  CreateAuthConfigMr (Content "A") NotGiven NotGiven = Some (Some (mkTls "A" "" "" "" "")).
Proof. repeat split. Qed.
