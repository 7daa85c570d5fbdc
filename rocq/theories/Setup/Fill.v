(** What is written for each repository (for C111). *)
From Coq Require Import String Ascii List Bool Arith Lia.
From Verif Require Import Common.Strs Expr.Json Setup.Model Setup.Spec Setup.Chains.
Import ListNotations.
Local Open Scope string_scope.
Local Open Scope list_scope.
Local Open Scope nat_scope.

(** *** Fields taken over *)
Lemma take_over_lookup e base k : alookup k (take_over e base) =
  if mem k take_over_keys then match get e k with JNull => alookup k base | v => Some v end else alookup k base.
Proof.
  unfold take_over. assert (forall ks acc, NoDup ks -> alookup k (fold_left (fun acc k => match get e k with JNull => acc | v => ainsert k v acc end) ks acc) =
    if mem k ks then match get e k with JNull => alookup k acc | v => Some v end else alookup k acc) as A.
  { induction ks as [|x ks IH]; intros acc N; [reflexivity|]. cbn [fold_left]. inversion N; subst. rewrite (IH _ H2).
    unfold mem in *. cbn [existsb]. destruct (String.eqb_spec k x) as [->|D]; cbn [orb].
    - assert (existsb (String.eqb x) ks = false) as -> by (now apply mem_notIn).
      destruct (get e x); try reflexivity; rewrite ainsert_lookup, String.eqb_refl; reflexivity.
    - assert (alookup k (match get e x with JNull => acc | v => ainsert x v acc end) = alookup k acc) as ->; [|reflexivity].
      destruct (get e x); try reflexivity; rewrite ainsert_lookup; destruct (String.eqb_spec k x); congruence. }
  apply A. repeat constructor; cbn; intuition discriminate.
Qed.

(** *** One repository *)
(** The root as the code writes it. *)
Inductive written (fetch : fields -> option json) : json -> json -> Prop :=
| written_fetched d ty root : alookup "type" d = Some (JStr ty) -> mem ty fetched_types = true -> fetch d = Some root -> written fetch (JObj d) root
| written_precomputed d p : parse_precomputed d = Done p -> written fetch d (precomputed_ws p).

Lemma written_root fetch d root : written fetch d root -> (forall r m n c a, computed_as d r m n c a -> m = n) -> root_for fetch d root.
Proof.
  intros [d' ty root' T M F|d' p P] Q.
  - eapply root_fetched; eauto. now apply mem_In in M.
  - apply parse_precomputed_sound in P. destruct p as [c|r a]; cbn in P.
    + destruct P as (E & n & P). specialize (Q _ _ _ _ _ P). subst n. cbn. rewrite E. now apply root_computed.
    + now apply root_structure.
Qed.
Lemma type_once fetch d root : root_for fetch d root -> forall d', d = JObj d' -> exists ty, alookup "type" d' = Some (JStr ty).
Proof. intros [d0 ty r T _ _|d0 r m n c a [? ? ? ? ? ? T _ _ _ _]|d0 r a [? ? ? T _ _]] d' E; injection E as <-; eauto. Qed.
Lemma root_written fetch d root : root_for fetch d root -> (forall r m n c a, computed_as d r m n c a -> m = n) -> written fetch d root.
Proof.
  intros [d' ty root' T M F|d' r m n c a C|d' r a C] Q.
  - eapply written_fetched; eauto. now apply mem_In.
  - rewrite <- (Q _ _ _ _ _ C). change (written fetch d' (precomputed_ws (PComputed {| c_repo := r; c_module := m; c_name := m; c_config := c; c_absent := a |}))).
    apply written_precomputed. eapply parse_precomputed_computed; eauto.
  - change (written fetch d' (precomputed_ws (PTree r a))). apply written_precomputed. now apply parse_precomputed_structure.
Qed.
Lemma type_of_precomputed d p : parse_precomputed (JObj d) = Done p -> exists ty, alookup "type" d = Some (JStr ty) /\ mem ty precomputed_types = true /\ mem ty fetched_types = false.
Proof.
  cbn. destruct (get d "type") eqn:T; try discriminate. apply get_given in T; [|discriminate]. intros E. exists s. split; [exact T|].
  destruct (String.eqb_spec s "computed") as [->|N]; [now split|]. destruct (String.eqb_spec s "tree structure") as [->|N2]; [now split|discriminate].
Qed.
Lemma written_fun fetch d r1 r2 : written fetch d r1 -> written fetch d r2 -> r1 = r2.
Proof.
  intros [d1 ty root T M F|d1 p P] W2.
  - inversion W2; subst; [congruence|]. apply type_of_precomputed in H as (ty' & A & _ & B). congruence.
  - inversion W2; subst; [|congruence]. apply type_of_precomputed in P as (ty' & A & _ & B). congruence.
Qed.

Section One.
Variable fetch : fields -> option json.
Variable repos : fields.
Variable main : option string.
Variable interactive : bool.

Lemma setup_repo_done n : forall r f, setup_repo fetch n repos main interactive r = Done f -> left_out main interactive r = false ->
  exists e d root, has_entry repos r e /\ described repos r d /\ written fetch d root /\ f = take_over e [("workspace_root", root)].
Proof.
  destruct n as [|n]; intros r f E L; [discriminate|]. cbn [setup_repo] in E. rewrite L in E.
  destruct (alookup r repos) as [v|] eqn:A; [|discriminate]. destruct v; try discriminate.
  destruct (alookup "repository" m) as [d|] eqn:B; [|discriminate]. destruct (resolve_repo repos d) as [v|] eqn:R; [|discriminate].
  destruct v; try discriminate. apply resolve_iff in R. assert (described repos r (JObj m0)) as D by (econstructor; eauto).
  destruct (alookup "type" m0) as [v|] eqn:T; [|discriminate]. destruct v; try discriminate.
  destruct (mem s fetched_types) eqn:M.
  - destruct (fetch m0) as [root|] eqn:F; [|discriminate]. injection E as <-. exists m, (JObj m0), root. repeat split; auto.
    eapply written_fetched; eauto.
  - destruct (mem s precomputed_types); [|discriminate]. destruct (parse_precomputed (JObj m0)) as [p| | |] eqn:P; try discriminate.
    destruct (setup_repo fetch n repos main interactive (referenced p)); try discriminate. injection E as <-.
    exists m, (JObj m0), (precomputed_ws p). repeat split; auto. now apply written_precomputed.
Qed.
Lemma setup_repo_left_out n r f : setup_repo fetch n repos main interactive r = Done f -> left_out main interactive r = true ->
  f = match get repos r with JObj e => take_over e [] | _ => [] end.
Proof.
  destruct n as [|n]; intros E L; [discriminate|]. cbn [setup_repo] in E. rewrite L in E.
  destruct (get repos r); try discriminate; now injection E as <-.
Qed.
Lemma setup_repo_ends n : forall r, setup_repo fetch n repos main interactive r <> Endless.
Proof.
  induction n as [|n IH]; intros r; [discriminate|]. cbn [setup_repo].
  destruct (left_out main interactive r); [destruct (get repos r); discriminate|].
  destruct (alookup r repos) as [v|]; [|discriminate]. destruct v; try discriminate.
  destruct (alookup "repository" m); [|discriminate]. destruct (resolve_repo repos j) as [v|]; [|discriminate]. destruct v; try discriminate.
  destruct (alookup "type" m0) as [v|]; [|discriminate]. destruct v; try discriminate.
  destruct (mem s fetched_types); [destruct (fetch m0); discriminate|]. destruct (mem s precomputed_types); [|discriminate].
  pose proof (parse_precomputed_ends (JObj m0)). destruct (parse_precomputed (JObj m0)) as [p| | |]; try discriminate; [|congruence].
  specialize (IH (referenced p)). destruct (setup_repo fetch n repos main interactive (referenced p)); try discriminate. congruence.
Qed.

Lemma setup_all_done n ks : forall vs, setup_all fetch n repos main interactive ks = Done vs ->
  keys vs = ks /\ forall k f, In (k, f) vs -> setup_repo fetch n repos main interactive k = Done f.
Proof.
  induction ks as [|k ks IH]; intros vs E; cbn [setup_all] in E.
  - injection E as <-. split; [reflexivity|intros ? ? []].
  - destruct (setup_repo fetch n repos main interactive k) as [f| | |] eqn:F; try discriminate.
    destruct (setup_all fetch n repos main interactive ks) as [vs'| | |]; try discriminate. injection E as <-.
    destruct (IH _ eq_refl) as [A B]. split; [cbn; now f_equal|]. intros k' f' [Q|Q]; [|auto]. now injection Q as <- <-.
Qed.
Lemma setup_all_ends n ks : setup_all fetch n repos main interactive ks <> Endless.
Proof.
  induction ks as [|k ks IH]; cbn [setup_all]; [discriminate|]. pose proof (setup_repo_ends n k).
  destruct (setup_repo fetch n repos main interactive k); try discriminate; [|congruence].
  destruct (setup_all fetch n repos main interactive ks); try discriminate. congruence.
Qed.

(** *** The values put together *)
Lemma gather_lookup (vs : list (string * fields)) : forall acc r, (forall k f g, In (k, f) vs -> In (k, g) vs -> f = g) ->
  alookup r (fold_left (fun acc p => ainsert (fst p) (snd p) acc) vs acc) =
  match alookup r vs with Some f => Some f | None => alookup r acc end.
Proof.
  induction vs as [|[k f] vs IH]; intros acc r U; [reflexivity|]. cbn [fold_left fst snd]. rewrite IH by (intros; eapply U; right; eauto).
  cbn [alookup]. destruct (alookup r vs) as [g|] eqn:G.
  - destruct (String.eqb_spec r k) as [->|]; [|reflexivity]. f_equal. eapply U; [right; eapply alookup_In; eauto|now left].
  - rewrite ainsert_lookup. destruct (String.eqb r k); reflexivity.
Qed.
Lemma retain_lookup (g : string -> fields) ks : forall acc r, alookup r (fold_left (fun acc r => ainsert r (g r) acc) ks acc) =
  if mem r ks then Some (g r) else alookup r acc.
Proof.
  induction ks as [|k ks IH]; intros acc r; [reflexivity|]. cbn [fold_left]. rewrite IH. unfold mem in *. cbn [existsb].
  destruct (existsb (String.eqb r) ks); [rewrite orb_true_r; reflexivity|]. rewrite orb_false_r, ainsert_lookup.
  destruct (String.eqb_spec r k) as [->|]; reflexivity.
Qed.
Lemma retain_sorted (g : string -> fields) ks : forall acc, sorted_keys acc -> sorted_keys (fold_left (fun acc r => ainsert r (g r) acc) ks acc).
Proof. induction ks as [|k ks IH]; intros acc S; [exact S|]. cbn [fold_left]. apply IH. now apply ainsert_sorted. Qed.

Definition root_in (mr : list (string * fields)) (v : string) : json :=
  match alookup "workspace_root" (entry_of mr v) with Some x => x | None => JNull end.
(** [mr'] has the same roots as [mr], and the same other fields, except for layers. *)
Definition keeps (mr mr' : list (string * fields)) : Prop :=
  (forall v x, alookup "workspace_root" (entry_of mr v) = Some x -> alookup "workspace_root" (entry_of mr' v) = Some x) /\
  (forall v, root_in mr' v = root_in mr v) /\
  (forall v k, ~ In k layers -> k <> "workspace_root" -> alookup k (entry_of mr' v) = alookup k (entry_of mr v)) /\
  (forall v, left_out main interactive v = true -> alookup "workspace_root" (entry_of mr' v) = alookup "workspace_root" (entry_of mr v)).
Lemma keeps_refl mr : keeps mr mr.
Proof. repeat split; auto. Qed.
Lemma keeps_trans a b c : keeps a b -> keeps b c -> keeps a c.
Proof.
  intros (A1 & A2 & A3 & A4) (B1 & B2 & B3 & B4). repeat split; auto.
  - intros v. now rewrite B2.
  - intros v k N W. now rewrite B3, A3.
  - intros v L. now rewrite B4, A4.
Qed.

Lemma entry_insert mr r f v : entry_of (ainsert r f mr) v = if String.eqb v r then f else entry_of mr v.
Proof. unfold entry_of. rewrite ainsert_lookup. destruct (String.eqb v r); reflexivity. Qed.

Lemma read_root_spec mr v mr' x : left_out main interactive v = false -> read_root mr v = (mr', x) -> x = root_in mr v /\ keeps mr mr' /\
  (forall r k, In k layers -> alookup k (entry_of mr' r) = alookup k (entry_of mr r)).
Proof.
  intros LO. unfold read_root, root_in. destruct (alookup "workspace_root" (entry_of mr v)) as [y|] eqn:E; intros Q; injection Q as <- <-.
  - repeat split; auto.
  - split; [reflexivity|]. split; [split; [|split; [|split]]|].
    + intros u z Z. rewrite entry_insert. destruct (String.eqb_spec u v) as [->|]; [congruence|exact Z].
    + intros u. unfold root_in. rewrite entry_insert. destruct (String.eqb_spec u v) as [->|]; [|reflexivity].
      rewrite ainsert_lookup. cbn. now rewrite E.
    + intros u k N W. rewrite entry_insert. destruct (String.eqb_spec u v) as [->|]; [|reflexivity].
      rewrite ainsert_lookup. destruct (String.eqb_spec k "workspace_root"); [contradiction|reflexivity].
    + intros u L. rewrite entry_insert. destruct (String.eqb_spec u v) as [->|]; [congruence|reflexivity].
    + intros r k I. rewrite entry_insert. destruct (String.eqb_spec r v) as [->|]; [|reflexivity].
      rewrite ainsert_lookup. destruct (String.eqb_spec k "workspace_root") as [->|]; [|reflexivity].
      cbn in I. intuition discriminate.
Qed.

(** What is written for the layer [k] of an entry [e]. *)
Definition layer_value (mr : list (string * fields)) (e : fields) (k : string) (before : option json) : option json :=
  match get e k with
  | JStr v => if left_out main interactive v then before else Some (root_in mr v)
  | _ => before
  end.
Lemma layer_value_keeps mr mr' e k b : keeps mr mr' -> layer_value mr' e k b = layer_value mr e k b.
Proof. intros (_ & K & _ & _). unfold layer_value. destruct (get e k); try reflexivity. now rewrite K. Qed.

Lemma fill_layer_spec repo e key mr mr' : In key layers -> fill_layer main interactive repo e key mr = Some mr' ->
  (get e key = JNull \/ exists s, get e key = JStr s) /\ keeps mr mr' /\
  (forall r k, In k layers -> alookup k (entry_of mr' r) =
     if String.eqb r repo && String.eqb k key then layer_value mr e key (alookup k (entry_of mr r)) else alookup k (entry_of mr r)).
Proof.
  intros I. unfold fill_layer, layer_value. destruct (get e key) as [| | | |s| |] eqn:G; try discriminate.
  - intros E. injection E as <-. split; [now left|]. split; [apply keeps_refl|]. intros r k _. destruct (String.eqb r repo && String.eqb k key); reflexivity.
  - destruct (left_out main interactive s) eqn:L.
    + intros E. injection E as <-. split; [right; eauto|]. split; [apply keeps_refl|]. intros r k _. destruct (String.eqb r repo && String.eqb k key); reflexivity.
    + destruct (read_root mr s) as [mr1 x] eqn:R. intros E. injection E as <-. destruct (read_root_spec _ _ _ _ L R) as (-> & K & Y).
      split; [right; eauto|]. split.
      * apply (keeps_trans _ mr1); [exact K|].
        assert (forall k v, ~ In k layers -> alookup k (entry_of (ainsert repo (ainsert key (root_in mr s) (entry_of mr1 repo)) mr1) v) = alookup k (entry_of mr1 v)) as Q.
        { intros k v N. rewrite entry_insert. destruct (String.eqb_spec v repo) as [->|]; [|reflexivity].
          rewrite ainsert_lookup. destruct (String.eqb_spec k key) as [->|]; [contradiction|reflexivity]. }
        assert (~ In "workspace_root" layers) as W by (cbn; intuition discriminate).
        split; [|split; [|split]].
        -- intros v y. now rewrite Q.
        -- intros v. unfold root_in at 1. rewrite Q by exact W. reflexivity.
        -- intros v k N _. now apply Q.
        -- intros v _. now apply Q.
      * intros r k J. rewrite entry_insert. destruct (String.eqb_spec r repo) as [->|]; cbn [andb]; [|now apply Y].
        rewrite ainsert_lookup. destruct (String.eqb_spec k key) as [->|]; [reflexivity|now apply Y].
Qed.
Lemma fill_layers_spec repo e ks : forall mr mr', NoDup ks -> incl ks layers -> fill_layers main interactive repo e ks mr = Some mr' ->
  (forall k, In k ks -> get e k = JNull \/ exists s, get e k = JStr s) /\ keeps mr mr' /\
  (forall r k, In k layers -> alookup k (entry_of mr' r) =
     if String.eqb r repo && mem k ks then layer_value mr e k (alookup k (entry_of mr r)) else alookup k (entry_of mr r)).
Proof.
  induction ks as [|x ks IH]; intros mr mr' N I E; cbn [fill_layers] in E.
  - injection E as <-. split; [intros ? []|]. split; [apply keeps_refl|]. intros r k _. unfold mem. cbn. now rewrite andb_false_r.
  - destruct (fill_layer main interactive repo e x mr) as [mr1|] eqn:F; [|discriminate]. inversion N; subst.
    destruct (fill_layer_spec _ _ _ _ _ (I x (or_introl eq_refl)) F) as (A1 & A2 & A3).
    destruct (IH mr1 mr' H2 (fun y Y => I y (or_intror Y)) E) as (B1 & B2 & B3).
    split; [intros k [<-|K]; auto|]. split; [now apply (keeps_trans _ mr1)|].
    intros r k J. rewrite B3, A3 by exact J. unfold mem in *. cbn [existsb].
    destruct (String.eqb r repo); cbn [andb]; [|reflexivity].
    destruct (String.eqb_spec k x) as [->|]; cbn [orb]; [|destruct (existsb (String.eqb k) ks); [now apply layer_value_keeps|reflexivity]].
    assert (existsb (String.eqb x) ks = false) as -> by (now apply mem_notIn). reflexivity.
Qed.

Definition filled (mr : list (string * fields)) (r k : string) (before : option json) : option json :=
  if left_out main interactive r then before
  else match get repos r with JObj e => layer_value mr e k before | _ => before end.
Lemma filled_keeps mr mr' r k b : keeps mr mr' -> filled mr' r k b = filled mr r k b.
Proof. intros K. unfold filled. destruct (left_out main interactive r); [reflexivity|]. destruct (get repos r); try reflexivity. now apply layer_value_keeps. Qed.
Lemma filled_twice mr r k b : filled mr r k (filled mr r k b) = filled mr r k b.
Proof.
  unfold filled, layer_value. destruct (left_out main interactive r); [reflexivity|]. destruct (get repos r); try reflexivity.
  destruct (get m k); try reflexivity. destruct (left_out main interactive s); reflexivity.
Qed.
Lemma fill_repos_spec include : forall mr mr', fill_repos repos main interactive include mr = Some mr' ->
  (forall r e, In r include -> left_out main interactive r = false -> has_entry repos r e -> forall k, In k layers -> get e k = JNull \/ exists s, get e k = JStr s) /\
  keeps mr mr' /\
  (forall r k, In k layers -> alookup k (entry_of mr' r) = if mem r include then filled mr r k (alookup k (entry_of mr r)) else alookup k (entry_of mr r)).
Proof.
  induction include as [|x include IH]; intros mr mr' E; cbn [fill_repos] in E.
  - injection E as <-. split; [intros ? ? []|]. split; [apply keeps_refl|]. reflexivity.
  - assert (exists mr1, fill_repos repos main interactive include mr1 = Some mr' /\ keeps mr mr1 /\
      (left_out main interactive x = false -> forall e, has_entry repos x e -> forall k, In k layers -> get e k = JNull \/ exists s, get e k = JStr s) /\
      (forall r k, In k layers -> alookup k (entry_of mr1 r) = if String.eqb r x then filled mr r k (alookup k (entry_of mr r)) else alookup k (entry_of mr r)))
      as (mr1 & F & K & G & V).
    { destruct (get repos x) eqn:A.
      2-6: destruct (left_out main interactive x) eqn:L; [|discriminate].
      1-6: exists mr; split; [exact E|]; split; [apply keeps_refl|]; split; [intros L' e Q; apply get_some in Q; congruence|];
           intros r k J; destruct (String.eqb_spec r x) as [->|]; [unfold filled; rewrite ?A; now destruct (left_out main interactive x)|reflexivity].
      destruct (left_out main interactive x) eqn:L.
      - exists mr; split; [exact E|]; split; [apply keeps_refl|]; split; [congruence|]. intros r k J.
        destruct (String.eqb_spec r x) as [->|]; [unfold filled; now rewrite L|reflexivity].
      - destruct (fill_layers main interactive x m alt_dirs mr) as [mr1|] eqn:F; [|discriminate]. exists mr1. split; [exact E|].
        destruct (fill_layers_spec x m alt_dirs mr mr1) as (B1 & B2 & B3); [repeat constructor; cbn; intuition discriminate|exact (fun y Y => Y)|exact F|].
        split; [exact B2|]. split.
        + intros _ e Q k J. apply get_some in Q. rewrite A in Q. injection Q as <-. now apply B1.
        + intros r k J. rewrite B3 by exact J. assert (mem k alt_dirs = true) as -> by (now apply mem_In). rewrite andb_true_r.
          destruct (String.eqb_spec r x) as [->|]; [unfold filled; now rewrite L, A|reflexivity]. }
    destruct (IH _ _ F) as (B1 & B2 & B3). split; [|split].
    + intros r e [<-|I] L H k J; [eauto|eapply B1; eauto].
    + now apply (keeps_trans _ mr1).
    + intros r k J. rewrite B3, V by exact J. unfold mem in *. cbn [existsb].
      destruct (String.eqb_spec r x) as [->|]; cbn [orb].
      * destruct (existsb (String.eqb x) include); [|reflexivity]. rewrite (filled_keeps mr mr1) by exact K. apply filled_twice.
      * destruct (existsb (String.eqb r) include); [|reflexivity]. now apply filled_keeps.
Qed.

(** *** The outcome *)
Lemma assemble_spec vs include out n : (forall k f, In (k, f) vs -> setup_repo fetch n repos main interactive k = Done f) ->
  incl include (keys vs) -> assemble repos main interactive vs include = Some out ->
  sorted_keys out /\ (forall r, In r (keys out) <-> In r include) /\
  (forall r f, alookup r out = Some f -> exists f0, setup_repo fetch n repos main interactive r = Done f0 /\
     (forall k, ~ In k layers -> k <> "workspace_root" -> alookup k f = alookup k f0) /\
     (forall x, alookup "workspace_root" f0 = Some x -> alookup "workspace_root" f = Some x) /\
     (left_out main interactive r = false -> exists e, has_entry repos r e /\ forall k, In k layers ->
        match alookup k e with
        | None | Some JNull => alookup k f = None
        | Some (JStr v) => alookup k f = if left_out main interactive v then None else
            Some (match alookup v vs with Some g => match alookup "workspace_root" g with Some x => x | None => JNull end | None => JNull end)
        | Some _ => False
        end) /\
     (left_out main interactive r = true -> forall k, In k ("workspace_root" :: layers) -> alookup k f = None)).
Proof.
  intros V I A. unfold assemble in A. set (mr0 := fold_left (fun acc p => ainsert (fst p) (snd p) acc) vs []) in *.
  destruct (fill_repos repos main interactive include mr0) as [mr|] eqn:F; [|discriminate]. injection A as <-.
  destruct (fill_repos_spec _ _ _ F) as (B1 & (K1 & K2 & K3 & K4) & B3).
  assert (forall r, alookup r mr0 = alookup r vs) as G.
  { intros r. unfold mr0. rewrite gather_lookup; [now destruct (alookup r vs)|]. intros k f g P Q. apply V in P, Q. congruence. }
  split; [apply retain_sorted; constructor|]. split.
  { intros r. destruct (in_dec string_dec r include) as [Y|N].
    - split; [tauto|]. intros _. destruct (in_dec string_dec r (keys (fold_left (fun acc r => ainsert r (entry_of mr r) acc) include []))) as [T|T]; [exact T|].
      apply alookup_None in T. rewrite retain_lookup, (proj2 (mem_In r include) Y) in T. discriminate.
    - split; [|tauto]. intros T. exfalso. assert (alookup r (fold_left (fun acc r => ainsert r (entry_of mr r) acc) include []) = None) as Z.
      { rewrite retain_lookup, (proj2 (mem_notIn r include) N). reflexivity. }
      apply alookup_None in Z. auto. }
  intros r f E. rewrite retain_lookup in E. destruct (mem r include) eqn:M; [|discriminate]. injection E as <-.
  assert (In r include) as Ir by (now apply mem_In).
  destruct (alookup r vs) as [f0|] eqn:L0.
  2:{ exfalso. apply alookup_None in L0. apply L0, I, Ir. }
  assert (entry_of mr0 r = f0) as E0 by (unfold entry_of; now rewrite G, L0).
  assert (setup_repo fetch n repos main interactive r = Done f0) as S0 by (apply V; now apply alookup_In).
  assert (forall k, In k layers -> alookup k f0 = None) as NL.
  { intros k J. destruct (left_out main interactive r) eqn:LO.
    - rewrite (setup_repo_left_out _ _ _ S0 LO). destruct (get repos r); try reflexivity. rewrite take_over_lookup.
      cbn in J. now destruct J as [<-|[<-|[<-|[]]]].
    - destruct (setup_repo_done _ _ _ S0 LO) as (e & d & root & _ & _ & _ & ->). rewrite take_over_lookup.
      cbn in J. now destruct J as [<-|[<-|[<-|[]]]]. }
  exists f0. split; [exact S0|]. split; [intros k N W; now rewrite K3, E0|]. split; [intros x X; apply K1; now rewrite E0|]. split.
  - intros LO. destruct (setup_repo_done _ _ _ S0 LO) as (e & d & root & He & _ & _ & _). exists e. split; [exact He|].
    intros k J. pose proof (B1 r e Ir LO He k J) as W. rewrite B3, M, E0, (NL k J) by exact J. unfold filled.
    rewrite LO, (get_some _ _ _ He). unfold layer_value. unfold get in *. destruct (alookup k e) as [w|]; [|reflexivity].
    destruct W as [->|[v ->]]; [reflexivity|]. destruct (left_out main interactive v); [reflexivity|]. f_equal.
    unfold root_in, entry_of. rewrite G. destruct (alookup v vs) as [g|]; [reflexivity|reflexivity].
  - intros LO k [<-|J]; [rewrite K4, E0, (setup_repo_left_out _ _ _ S0 LO) by exact LO; destruct (get repos r); try reflexivity; now rewrite take_over_lookup|].
    rewrite B3, M, E0, (NL k J) by exact J. unfold filled. now rewrite LO.
Qed.
End One.
