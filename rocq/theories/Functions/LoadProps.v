(** Reading definitions of expression functions: C139. *)
From Coq Require Import String List Bool Arith Lia.
From Verif Require Import Common.Strs Expr.Json Expr.Model Expr.Eval Rules.Model Rules.Spec Rules.Proofs.
From Verif Require Import Functions.Model Functions.Load.
Import ListNotations.
Local Open Scope string_scope.
Local Open Scope list_scope.

Section Spec.
Variable name : Type.
Variable is_definition_name : name -> bool.
Variable definition : name -> option Rules.Model.json.
Variable parse : name -> Rules.Model.json -> option name.
Variable from_json : Rules.Model.json -> option expr.

(** The function a name stands for, if any: its definition has a body and, if wanted, a list of
    variables and imports; the imports stand for functions themselves, with names relative to the
    function importing them. *)
Inductive stands_for : name -> fn -> Prop :=
| stands_for_intro id m e body vars aliases imports :
    is_definition_name id = true ->
    definition id = Some (JObj m) ->
    In ("expression", e) m -> from_json e = Some body ->
    strings_at m "vars" vars ->
    object_at (fun v n => parse id v = Some n) m "imports" aliases ->
    stand_for aliases imports ->
    stands_for id (Fn vars imports body)
with stand_for : list (string * name) -> list (string * fn) -> Prop :=
| stand_for_nil : stand_for [] []
| stand_for_cons alias id f l r : stands_for id f -> stand_for l r ->
    stand_for ((alias, id) :: l) ((alias, f) :: r).

Scheme stands_for_ind2 := Induction for stands_for Sort Prop
with stand_for_ind2 := Induction for stand_for Sort Prop.

(** Directly imported: an entry of the imports. *)
Definition imports_directly (a b : name) : Prop :=
  exists m o alias v, definition a = Some (JObj m) /\ In ("imports", JObj o) m /\
    In (alias, v) o /\ parse a v = Some b.

Inductive depends : name -> name -> Prop :=
| depends_direct a b : imports_directly a b -> depends a b
| depends_step a b c : imports_directly a b -> depends b c -> depends a c.

Hypothesis unique : forall id m, definition id = Some (JObj m) -> NoDup (map fst m).

Notation load := (LoadFunction name is_definition_name definition parse from_json).

Lemma load_all_mono (f g : name -> option fn) l r :
  (forall id x, f id = Some x -> g id = Some x) ->
  load_all name f l = Some r -> load_all name g l = Some r.
Proof.
  intro M. revert r. induction l as [|[a id] l IH]; intros r; cbn [load_all]; [trivial|].
  destruct (f id) as [x|] eqn:E; [|discriminate]. rewrite (M _ _ E).
  destruct (load_all name f l) as [r'|]; [|discriminate]. now rewrite (IH r' eq_refl).
Qed.

Lemma load_mono n : forall k id f, n <= k -> load n id = Some f -> load k id = Some f.
Proof.
  induction n as [|n IH]; intros k id f L; [discriminate|].
  destruct k as [|k]; [lia|]. cbn [LoadFunction].
  destruct (is_definition_name id); [|discriminate].
  destruct (definition id) as [[| | | |m]|]; try discriminate.
  destruct (alookup "expression" m); [|discriminate].
  destruct (from_json _); [|discriminate].
  destruct (ReadStringList m "vars"); [|discriminate].
  destruct (ReadEntityAliasesObject name (parse id) m "imports") as [al|]; [|discriminate].
  destruct (load_all name (load n) al) as [im|] eqn:E; [|discriminate].
  intro Q. rewrite (load_all_mono (load n) (load k) al im); [exact Q| |exact E].
  intros id' x. apply IH. lia.
Qed.

Lemma aliases_at_read id m l : NoDup (map fst m) ->
  object_at (fun v n => parse id v = Some n) m "imports" l <->
  ReadEntityAliasesObject name (parse id) m "imports" = Some l.
Proof.
  intro ND. unfold object_at, ReadEntityAliasesObject. split.
  - intros (o & V & E). apply value_at_get in V; [|exact ND]. rewrite V. now apply map_entries_spec.
  - destruct (GetOrDefault m "imports" (JObj [])) as [| | | |o] eqn:G; try discriminate.
    intro E. exists o. split; [now apply value_at_get|now apply map_entries_spec].
Qed.

Lemma load_sound n : forall id f, load n id = Some f -> stands_for id f.
Proof.
  induction n as [|n IH]; intros id f; [discriminate|]. cbn [LoadFunction].
  destruct (is_definition_name id) eqn:E1; [|discriminate].
  destruct (definition id) as [[| | | |m]|] eqn:E2; try discriminate.
  pose proof (unique id m E2) as ND.
  destruct (alookup "expression" m) as [e|] eqn:E3; [|discriminate].
  destruct (from_json e) as [body|] eqn:E4; [|discriminate].
  destruct (ReadStringList m "vars") as [vars|] eqn:E5; [|discriminate].
  destruct (ReadEntityAliasesObject name (parse id) m "imports") as [al|] eqn:E6; [|discriminate].
  destruct (load_all name (load n) al) as [im|] eqn:E7; [|discriminate]. intros [= <-].
  apply (stands_for_intro id m e body vars al im E1 E2).
  - now apply in_alookup.
  - exact E4.
  - now apply strings_at_read.
  - now apply aliases_at_read.
  - clear E6. revert im E7. induction al as [|[a i] al IHal]; intros im; cbn [load_all].
    + intros [= <-]. constructor.
    + destruct (load n i) as [x|] eqn:E; [|discriminate].
      destruct (load_all name (load n) al) as [r|]; [|discriminate]. intros [= <-].
      constructor; [exact (IH _ _ E)|exact (IHal r eq_refl)].
Qed.

Lemma load_complete id f : stands_for id f -> exists n, load n id = Some f.
Proof.
  intro D.
  apply (stands_for_ind2 (fun id f _ => exists n, load n id = Some f)
           (fun l r _ => exists n, load_all name (load n) l = Some r)); [| | |exact D].
  - intros i m e body vars al im E1 E2 E3 E4 E5 E6 _ [n E7]. exists (S n). cbn [LoadFunction].
    pose proof (unique i m E2) as ND. rewrite E1, E2.
    rewrite (proj1 (in_alookup m "expression" e ND) E3), E4.
    rewrite (proj1 (strings_at_read m "vars" vars ND) E5).
    rewrite (proj1 (aliases_at_read i m al ND) E6), E7. reflexivity.
  - exists 0. reflexivity.
  - intros a i g l r _ [n1 A] _ [n2 B]. exists (n1 + n2). cbn [load_all].
    rewrite (load_mono n1 (n1 + n2) i g) by (lia || exact A).
    rewrite (load_all_mono (load n2) (load (n1 + n2)) l r); [reflexivity| |exact B].
    intros id' x. apply load_mono. lia.
Qed.

(** Exactly the functions that names stand for are read. *)
Theorem C139_read id f : (exists n, load n id = Some f) <-> stands_for id f.
Proof. split; [intros [n E]; exact (load_sound n id f E)|apply load_complete]. Qed.

(** A name stands for at most one function. *)
Theorem C139_unambiguous id f g : stands_for id f -> stands_for id g -> f = g.
Proof.
  intros A B. apply load_complete in A. apply load_complete in B.
  destruct A as [n A], B as [k B].
  apply (load_mono n (n + k)) in A; [|lia]. apply (load_mono k (n + k)) in B; [|lia]. congruence.
Qed.

Lemma entries_in {A} (R : Rules.Model.json -> A -> Prop) o l k v :
  entries R o l -> In (k, v) o -> exists a, In (k, a) l /\ R v a.
Proof.
  intros E. induction E as [|[k1 v1] [k2 a] o l [Q1 Q2] E IH]; [intros []|].
  cbn [fst snd] in Q1, Q2. subst k2. intros [Q|Hin].
  - injection Q as -> ->. exists a. split; [now left|exact Q2].
  - destruct (IH Hin) as (a' & X & Y). exists a'. split; [now right|exact Y].
Qed.

Lemma load_all_in (ld : name -> option fn) l r a i :
  load_all name ld l = Some r -> In (a, i) l -> exists f, ld i = Some f.
Proof.
  revert r. induction l as [|[a' i'] l IH]; intros r; cbn [load_all]; [intros _ []|].
  destruct (ld i') as [x|] eqn:E; [|discriminate].
  destruct (load_all name ld l) as [r'|]; [|discriminate]. intros _ [Q|Hin].
  - injection Q as -> ->. now exists x.
  - exact (IH r' eq_refl Hin).
Qed.

Lemma load_import n a b f : load (S n) a = Some f -> imports_directly a b ->
  exists g, load n b = Some g.
Proof.
  cbn [LoadFunction]. intros E (m & o & alias & v & E2 & Ho & Hv & P). rewrite E2 in E.
  destruct (is_definition_name a); [|discriminate].
  destruct (alookup "expression" m); [|discriminate].
  destruct (from_json _); [|discriminate].
  destruct (ReadStringList m "vars"); [|discriminate].
  destruct (ReadEntityAliasesObject name (parse a) m "imports") as [al|] eqn:E6; [|discriminate].
  destruct (load_all name (load n) al) as [im|] eqn:E7; [|discriminate].
  unfold ReadEntityAliasesObject, GetOrDefault in E6.
  rewrite (proj1 (in_alookup m "imports" (JObj o) (unique a m E2)) Ho) in E6.
  apply map_entries_spec in E6.
  destruct (entries_in _ _ _ _ _ E6 Hv) as (b' & Hb & P').
  assert (b' = b) by congruence. subst b'.
  exact (load_all_in _ _ _ _ _ E7 Hb).
Qed.

Lemma load_depends a b : depends a b -> forall n f, load (S n) a = Some f -> exists g, load n b = Some g.
Proof.
  intro D. induction D as [a b Hd|a b c Hd D IH]; intros n f E.
  - exact (load_import n a b f E Hd).
  - destruct (load_import n a b f E Hd) as [g G]. destruct n as [|n]; [discriminate|].
    destruct (IH n g G) as [h Hh]. exists h. exact (load_mono n (S n) c h (le_S _ _ (le_n _)) Hh).
Qed.

(** Functions that need themselves are refused, and with them all that need these. *)
Theorem C139_cycles id : depends id id -> forall f, ~ stands_for id f.
Proof.
  intros D f A. apply load_complete in A. destruct A as [n A]. revert f A.
  induction n as [|n IH]; intros f A; [discriminate|].
  destruct (load_depends id id D n f A) as [g G]. exact (IH g G).
Qed.

(** Every import has to stand for a function as well, used or not. *)
Theorem C139_imports_needed a b f : stands_for a f -> depends a b -> exists g, stands_for b g.
Proof.
  intros A D. apply load_complete in A. destruct A as [n A]. destruct n as [|n]; [discriminate|].
  destruct (load_depends a b D n f A) as [g G]. exists g. exact (load_sound n b g G).
Qed.
End Spec.
Print Assumptions C139_read.
Print Assumptions C139_unambiguous.
Print Assumptions C139_cycles.
Print Assumptions C139_imports_needed.

(** Two functions, one importing the other, and one importing itself. *)
Definition ex_definition (id : string) : option Rules.Model.json :=
  if String.eqb id "f" then
    Some (JObj [("expression", JStr "body of f"); ("imports", JObj [("h", JStr "g")]); ("vars", JArr [JStr "x"])])
  else if String.eqb id "g" then Some (JObj [("expression", JStr "body of g")])
  else if String.eqb id "c" then Some (JObj [("expression", JNull); ("imports", JObj [("c", JStr "c")])])
  else None.
Definition ex_parse (_ : string) (v : Rules.Model.json) : option string :=
  match v with JStr s => Some s | _ => None end.
Definition ex_from_json (v : Rules.Model.json) : option expr :=
  match v with JStr s => Some (EStr s) | _ => Some ENone end.

Example C139_nonvacuous :
  (forall id m, ex_definition id = Some (JObj m) -> NoDup (map fst m)) /\
  stands_for string (fun _ => true) ex_definition ex_parse ex_from_json "f"
    (Fn ["x"] [("h", Fn [] [] (EStr "body of g"))] (EStr "body of f")) /\
  depends string ex_definition ex_parse "f" "g" /\
  depends string ex_definition ex_parse "c" "c".
Proof.
  assert (U : forall id m, ex_definition id = Some (JObj m) -> NoDup (map fst m)).
  { intros id m. unfold ex_definition.
    destruct (String.eqb id "f"); [intros [= <-]; cbn; repeat constructor; cbn; intuition discriminate|].
    destruct (String.eqb id "g"); [intros [= <-]; cbn; repeat constructor; cbn; intuition discriminate|].
    destruct (String.eqb id "c"); [intros [= <-]; cbn; repeat constructor; cbn; intuition discriminate|].
    discriminate. }
  split; [exact U|]. split; [|split].
  - apply (C139_read _ _ _ _ _ U). exists 3. reflexivity.
  - apply depends_direct. eexists _, _, "h", (JStr "g"). split; [reflexivity|].
    split; [right; left; reflexivity|]. split; [left; reflexivity|reflexivity].
  - apply depends_direct. eexists _, _, "c", (JStr "c"). split; [reflexivity|].
    split; [right; left; reflexivity|]. split; [left; reflexivity|reflexivity].
Qed.
