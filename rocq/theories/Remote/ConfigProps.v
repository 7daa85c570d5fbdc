(** Settings for remote execution: C142. *)
From Coq Require Import String List Bool NArith Lia.
From Verif Require Import Common.Strs Rules.Model Describe.Proofs Remote.Address Remote.Config.
Import ListNotations.
Local Open Scope string_scope.
Local Open Scope list_scope.

Lemma assign_lookup k v l x :
  alookup x (assign k v l) = if String.eqb x k then Some v else alookup x l.
Proof.
  induction l as [|[k' v'] l IH]; cbn [assign alookup]; [reflexivity|].
  destruct (String.eqb_spec k k') as [->|N]; cbn [alookup].
  - destruct (String.eqb_spec x k'); reflexivity.
  - rewrite IH. destruct (String.eqb_spec x k') as [->|]; [|reflexivity].
    destruct (String.eqb_spec k' k); [congruence|reflexivity].
Qed.

Lemma set_properties_all raw : forall l r, set_properties raw l = Some r ->
  forall t, In t raw -> ParseProperty t <> None.
Proof.
  induction raw as [|p raw IH]; intros l r E t; [intros []|]. cbn [set_properties] in E.
  destruct (ParseProperty p) as [[k v]|] eqn:P; [|discriminate].
  intros [<-|Hin]; [congruence|exact (IH _ _ E t Hin)].
Qed.

Lemma set_properties_some raw : (forall t, In t raw -> ParseProperty t <> None) ->
  forall l, exists r, set_properties raw l = Some r.
Proof.
  induction raw as [|p raw IH]; intros A l; cbn [set_properties]; [now exists l|].
  destruct (ParseProperty p) as [[k v]|] eqn:P; [|exfalso; exact (A p (or_introl eq_refl) P)].
  apply IH. intros t Ht. apply A. now right.
Qed.

(** The last text that gives a value to [k] gives [v]. *)
Definition last_says (raw : list string) (k v : string) : Prop :=
  exists before text after, raw = before ++ text :: after /\ ParseProperty text = Some (k, v) /\
    forall t w, In t after -> ParseProperty t <> Some (k, w).

Lemma set_properties_lookup raw : forall l r, set_properties raw l = Some r -> forall k v,
  alookup k r = Some v <->
  last_says raw k v \/ (alookup k l = Some v /\ forall t w, In t raw -> ParseProperty t <> Some (k, w)).
Proof.
  induction raw as [|p raw IH]; intros l r E k v; cbn [set_properties] in E.
  - injection E as <-. split.
    + intro A. right. split; [exact A|intros t w []].
    + intros [(b & t & a & Q & _)|[A _]]; [destruct b; discriminate|exact A].
  - destruct (ParseProperty p) as [[k' v']|] eqn:P; [|discriminate].
    rewrite (IH _ _ E k v), assign_lookup. split.
    + intros [(b & t & a & -> & Q & N)|[A N]].
      * left. exists (p :: b), t, a. repeat split; assumption.
      * destruct (String.eqb_spec k k') as [->|D].
        -- left. exists [], p, raw. repeat split; [congruence|exact N].
        -- right. split; [exact A|]. intros t w [<-|Hin]; [congruence|exact (N t w Hin)].
    + intros [(b & t & a & Q & Q' & N)|[A N]].
      * destruct b as [|b0 b]; cbn [app] in Q; injection Q as -> ->.
        -- right. rewrite P in Q'. injection Q' as -> ->. rewrite String.eqb_refl. split; [reflexivity|exact N].
        -- left. exists b, t, a. repeat split; assumption.
      * destruct (String.eqb_spec k k') as [->|D].
        -- exfalso. exact (N p v' (or_introl eq_refl) P).
        -- right. split; [exact A|]. intros t w Hin. apply N. now right.
Qed.

(** A configuration is what was given: the addresses, the dispatch list, and for each property the value
    given last. Without address of a cache it is that of the execution; "local" stands for none. *)
Theorem C142_settings remote_raw cache_raw file raw c :
  Build remote_raw cache_raw file raw = Value c ->
  match remote_raw with
  | None => remote_address c = None
  | Some s => exists a, ParseAddress s = Value a /\ remote_address c = Some a
  end /\
  match cache_raw with
  | None => cache_address c = remote_address c
  | Some s => (s = "local" /\ cache_address c = None) \/
              (exists a, ParseAddress s = Value a /\ cache_address c = Some a)
  end /\
  match file with
  | None => dispatch c = []
  | Some v => exists d, v = Some d /\ ParseDispatch d = Value (dispatch c)
  end /\
  (forall k v, alookup k (platform_properties c) = Some v <-> last_says raw k v).
Proof.
  unfold Build. destruct (set_remote remote_raw) as [r| |] eqn:R; try discriminate.
  destruct (set_cache cache_raw r) as [ca| |] eqn:C; try discriminate.
  destruct (set_dispatch file) as [d| |] eqn:D; try discriminate.
  destruct (set_properties raw []) as [ps|] eqn:P; try discriminate.
  intros [= <-]. cbn [remote_address cache_address dispatch platform_properties].
  split; [|split; [|split]].
  - destruct remote_raw as [s|]; cbn [set_remote] in R; [|congruence].
    destruct (ParseAddress s) as [a| |]; try discriminate. exists a. split; congruence.
  - destruct cache_raw as [s|]; cbn [set_cache] in C; [|congruence].
    destruct (ParseAddress s) as [a| |] eqn:A; try discriminate.
    + right. exists a. split; congruence.
    + destruct (String.eqb_spec s "local"); [|discriminate]. left. split; congruence.
  - destruct file as [[v|]|]; cbn [set_dispatch] in D; try discriminate; [|congruence].
    exists v. split; [reflexivity|exact D].
  - intros k v. rewrite (set_properties_lookup raw [] ps P k v). split; [|tauto].
    intros [A|[A _]]; [exact A|discriminate].
Qed.
Print Assumptions C142_settings.

(** And it is made exactly if all that is given can be read. *)
Theorem C142_accepted remote_raw cache_raw file raw :
  (exists c, Build remote_raw cache_raw file raw = Value c) <->
  (forall s, remote_raw = Some s -> exists a, ParseAddress s = Value a) /\
  (forall s, cache_raw = Some s -> s = "local" \/ exists a, ParseAddress s = Value a) /\
  (forall v, file = Some v -> exists d l, v = Some d /\ ParseDispatch d = Value l) /\
  (forall t, In t raw -> exists k v, ParseProperty t = Some (k, v)).
Proof.
  split.
  - intros [c E]. pose proof (C142_settings _ _ _ _ _ E) as (A & B & D & _). repeat split.
    + intros s ->. destruct A as (a & A & _). now exists a.
    + intros s ->. destruct B as [[B _]|(a & B & _)]; [now left|right; now exists a].
    + intros v ->. destruct D as (d & D1 & D2). exists d, (dispatch c). split; assumption.
    + intros t Ht. unfold Build in E. destruct (set_remote remote_raw); try discriminate.
      destruct (set_cache cache_raw a); try discriminate. destruct (set_dispatch file); try discriminate.
      destruct (set_properties raw []) as [ps|] eqn:P; try discriminate.
      pose proof (set_properties_all raw [] ps P t Ht) as N.
      destruct (ParseProperty t) as [[k v]|]; [|congruence]. now exists k, v.
  - intros (A & B & D & P). unfold Build.
    assert (exists r, set_remote remote_raw = Value r) as [r ->].
    { destruct remote_raw as [s|]; cbn [set_remote]; [|now eexists].
      destruct (A s eq_refl) as [a ->]. now eexists. }
    assert (exists ca, set_cache cache_raw r = Value ca) as [ca ->].
    { destruct cache_raw as [s|]; cbn [set_cache]; [|now eexists].
      destruct (B s eq_refl) as [->|[a ->]]; [|now eexists].
      change (ParseAddress "local") with (@Refused address). now eexists. }
    assert (exists d, set_dispatch file = Value d) as [d ->].
    { destruct file as [v|]; cbn [set_dispatch]; [|now eexists].
      destruct (D v eq_refl) as (d & l & -> & E). now exists l. }
    destruct (set_properties_some raw) with (l := @nil (string * string)) as [ps ->]; [|now eexists].
    intros t Ht. destruct (P t Ht) as (k & v & E). congruence.
Qed.
Print Assumptions C142_accepted.

Example C142_nonvacuous :
  Build (Some "build.example:8980") None (Some (Some (JArr []))) ["a:1"; "b:2"; "a:3"] =
    Value (mkConfig (Some (mkAddress "build.example" 8980)) [] (Some (mkAddress "build.example" 8980))
                    [("a", "3"); ("b", "2")]) /\
  Build (Some "build.example:8980") (Some "local") None [] =
    Value (mkConfig (Some (mkAddress "build.example" 8980)) [] None []) /\
  Build (Some "local") None None [] = Refused /\
  last_says ["a:1"; "b:2"; "a:3"] "a" "3".
Proof.
  repeat split; try (vm_compute; reflexivity).
  exists ["a:1"; "b:2"], "a:3", []. repeat split. intros t w [].
Qed.
