(** Shards of the target cache: C143. *)
From Coq Require Import String Ascii List Bool NArith DecimalString.
From Verif Require Import Common.Strs Expr.DumpProofs.
From Verif Require Import Describe.Model Describe.Spec Describe.Proofs Rules.Model Remote.Address Remote.AddressProps
  Remote.Config Remote.Backend.
Import ListNotations.
Local Open Scope string_scope.
Local Open Scope list_scope.

(** An address that was read from a text. *)
Definition given (a : address) : Prop := exists text, ParseAddress text = Value a.
(** Two different arguments with the same value. *)
Definition collision {A} (f : A -> string) : Prop := exists x y, x <> y /\ f x = f y.

Lemma address_text_inj a b : no_char ":" (a_host a) -> no_char ":" (a_host b) ->
  address_text a = address_text b -> a = b.
Proof.
  destruct a as [h n], b as [h' n']. unfold address_text. cbn [a_host a_port].
  change (":" ++ N_text n)%string with (String ":" (N_text n)).
  change (":" ++ N_text n')%string with (String ":" (N_text n')). intros A B E.
  pose proof (getline_go_token ":" h (N_text n) A) as G. rewrite E in G.
  rewrite (getline_go_token ":" h' (N_text n') B) in G. injection G as -> E'.
  f_equal. symmetry. now apply N_text_inj.
Qed.
Lemma given_inj a b : given a -> given b -> address_text a = address_text b -> a = b.
Proof.
  intros (s & A) (t & B). apply C141_accepted_partial in A, B.
  apply address_text_inj; [apply A|apply B].
Qed.
Lemma properties_json_inj p q : properties_json p = properties_json q -> p = q.
Proof.
  intros [= E]. revert q E. induction p as [|[k v] p IH]; intros [|[k' v'] q] E; try discriminate; [reflexivity|].
  cbn [map] in E. injection E as -> -> E. now rewrite (IH q E).
Qed.
Lemma endpoints_inj d e : Forall (fun x => given (snd x)) d -> Forall (fun x => given (snd x)) e ->
  map endpoint_json d = map endpoint_json e -> d = e.
Proof.
  intros F. revert e. induction F as [|[p a] d A F IH]; intros e Fe E; destruct e as [|[q b] e]; try discriminate; [reflexivity|].
  inversion Fe as [|? ? B Fe']; subst. cbn [map endpoint_json fst snd] in *.
  assert (E1 : properties_json p = properties_json q) by (unfold endpoint_json in E; cbn [fst snd] in E; congruence).
  assert (E2 : address_text a = address_text b) by (unfold endpoint_json in E; cbn [fst snd] in E; congruence).
  assert (E3 : map endpoint_json d = map endpoint_json e) by congruence.
  apply properties_json_inj in E1. apply (given_inj a b A B) in E2. subst. now rewrite (IH e Fe' E3).
Qed.
Lemma describe_json_inj a p d a' p' d' :
  (forall x, a = Some x -> given x) -> (forall x, a' = Some x -> given x) ->
  Forall (fun x => given (snd x)) d -> Forall (fun x => given (snd x)) d' ->
  describe_json a p d = describe_json a' p' d' -> a = a' /\ p = p' /\ d = d'.
Proof.
  intros A A' D D' E. unfold describe_json in E.
  assert (X : properties_json p = properties_json p' /\ address_json a = address_json a' /\ d = d').
  { destruct d as [|x d], d' as [|x' d']; cbn [app] in E; try discriminate.
    - split; [congruence|]. split; [congruence|reflexivity].
    - split; [congruence|]. split; [congruence|]. apply endpoints_inj; [exact D|exact D'|congruence]. }
  destruct X as (X1 & X2 & ->). apply properties_json_inj in X1. subst. split; [|now split].
  destruct a as [x|], a' as [x'|]; cbn [address_json] in X2; try discriminate; [|reflexivity].
  injection X2 as X2. f_equal. apply given_inj; auto.
Qed.

Fixpoint json_dec (x y : json) {struct x} : {x = y} + {x <> y}.
Proof.
  destruct x as [| |s|l|m], y as [| |s'|l'|m']; try (right; discriminate); try (left; reflexivity).
  - destruct (string_dec s s') as [->|N]; [now left|right; congruence].
  - destruct (list_eq_dec json_dec l l') as [->|N]; [now left|right; congruence].
  - assert (P : forall u v : string * json, {u = v} + {u <> v}) by exact (fun u v =>
      match u as u0 return {u0 = v} + {u0 <> v} with
      | (k, w) => match v as v0 return {(k, w) = v0} + {(k, w) <> v0} with
        | (k', w') => match string_dec k k' with
          | left e => match json_dec w w' with
            | left f => left (f_equal2 pair e f)
            | right n => right (fun q : (k, w) = (k', w') => n (f_equal snd q)) end
          | right n => right (fun q : (k, w) = (k', w') => n (f_equal fst q)) end end end).
    destruct (list_eq_dec P m m') as [->|N]; [now left|right; congruence].
Defined.

(** Different settings give different directories, up to collisions of the text form or of the hash. *)
Theorem C143_separate dump sha256 hash a p d a' p' d' :
  (forall x, a = Some x -> given x) -> (forall x, a' = Some x -> given x) ->
  Forall (fun x => given (snd x)) d -> Forall (fun x => given (snd x)) d' ->
  shard hash (Describe dump sha256 a p d) = shard hash (Describe dump sha256 a' p' d') ->
  (a = a' /\ p = p' /\ d = d') \/ collision dump \/ collision hash.
Proof.
  intros A A' D D' E. unfold shard, Describe in E. cbn [description] in E.
  destruct (string_dec (dump (describe_json a p d)) (dump (describe_json a' p' d'))) as [E1|N1].
  - assert (Dec : describe_json a p d = describe_json a' p' d' \/ describe_json a p d <> describe_json a' p' d').
    { destruct (json_dec (describe_json a p d) (describe_json a' p' d')); auto. }
    destruct Dec as [E2|N2].
    + left. now apply describe_json_inj.
    + right. left. eexists _, _. split; [exact N2|exact E1].
  - right. right. eexists _, _. split; [exact N1|exact E].
Qed.
Print Assumptions C143_separate.

(** Read from texts as well: settings accepted for remote execution. *)
Theorem C143_settings dump sha256 hash r c f props r' c' f' props' s s' :
  Build r c f props = Value s -> Build r' c' f' props' = Value s' ->
  shard hash (Describe dump sha256 (remote_address s) (platform_properties s) (dispatch s)) =
  shard hash (Describe dump sha256 (remote_address s') (platform_properties s') (dispatch s')) ->
  (remote_address s = remote_address s' /\ platform_properties s = platform_properties s' /\
   dispatch s = dispatch s') \/ collision dump \/ collision hash.
Proof.
  assert (G : forall r c f props s, Build r c f props = Value s ->
    (forall x, remote_address s = Some x -> given x) /\ Forall (fun x => given (snd x)) (dispatch s)).
  { clear. intros r c f props s E. unfold Build in E.
    destruct (set_remote r) as [ra| |] eqn:R; try discriminate.
    destruct (set_cache c ra) as [ca| |]; try discriminate.
    destruct (set_dispatch f) as [di| |] eqn:D; try discriminate.
    destruct (set_properties props []) as [pr|]; try discriminate.
    injection E as <-. cbn [remote_address dispatch]. split.
    - intros x ->. unfold set_remote in R. destruct r as [t|]; [|discriminate].
      destruct (ParseAddress t) as [y| |] eqn:P; try discriminate. injection R as ->. now exists t.
    - unfold set_dispatch in D. destruct f as [[j|]|]; try discriminate; [|injection D as <-; constructor].
      apply C141_dispatch in D. destruct D as (es & _ & F).
      induction F as [|v e es di (t & _ & P) F IH]; constructor; [now exists t|exact IH]. }
  intros B B'. destruct (G _ _ _ _ _ B) as [G1 G2], (G _ _ _ _ _ B') as [G3 G4].
  now apply C143_separate.
Qed.
Print Assumptions C143_settings.

(** Switching a cache to the settings of a request: the cache used is that of the request, up to
    collisions of the hash used to compare; and the comparison is always defined. *)
Theorem C143_switch dump sha256 hash a p d a' p' d' :
  exists b, WithShard (Describe dump sha256 a p d) (Describe dump sha256 a' p' d') = Defined b /\
    (shard hash b = shard hash (Describe dump sha256 a' p' d') \/ collision sha256).
Proof.
  unfold WithShard, same, Describe. cbn [sha].
  set (t := dump (describe_json a p d)). set (t' := dump (describe_json a' p' d')). clearbody t t'.
  destruct (String.eqb_spec (sha256 t) (sha256 t')) as [E|N].
  - eexists. split; [reflexivity|]. unfold shard. cbn [description].
    destruct (string_dec t t') as [->|Nt]; [now left|right; now exists t, t'].
  - eexists. split; [reflexivity|]. now left.
Qed.
Print Assumptions C143_switch.

(** The same for caches with the description that is there by default: not so, although this describes
    the same backend as the settings without address, properties and dispatch. *)
Theorem C143_default_refuted : forall dump sha256 hash,
  shard hash (default_backend dump sha256) = shard hash (Describe dump sha256 None [] []) /\
  (forall a p d, WithShard (default_backend dump sha256) (Describe dump sha256 a p d) = Undefined /\
                 WithShard (Describe dump sha256 a p d) (default_backend dump sha256) = Undefined).
Proof. intros. repeat split. Qed.
Print Assumptions C143_default_refuted.

Example C143_nonvacuous :
  given (mkAddress "build.example" 8980) /\
  Build (Some "build.example:8980") None None ["arch:arm"] =
    Value (mkConfig (Some (mkAddress "build.example" 8980)) [] (Some (mkAddress "build.example" 8980)) [("arch", "arm")]) /\
  describe_json (Some (mkAddress "build.example" 8980)) [("arch", "arm")] [([("os", "x")], mkAddress "h" 80)] =
    JObj [("endpoint dispatch list", JArr [JArr [JObj [("os", JStr "x")]; JStr "h:80"]]);
          ("platform_properties", JObj [("arch", JStr "arm")]); ("remote_address", JStr "build.example:8980")].
Proof. split; [now exists "build.example:8980"|]. split; vm_compute; reflexivity. Qed.
