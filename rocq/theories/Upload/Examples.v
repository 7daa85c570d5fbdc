(** Concrete input roots and transfers. *)
From Coq Require Import String Ascii List Bool NArith Arith Permutation Lia.
From Verif Require Import Common.Strs Hex.Model Hex.Proofs GitTree.Model GitTree.Spec GitTree.Proofs GitTree.Ids TreeOps.Model TreeOps.Spec TreeOps.Proofs TreeOps.Witness
  Path.Model Path.Spec Upload.Model Upload.Spec Upload.Logic Upload.Transfer Upload.Root Upload.Build Upload.Put.
Import ListNotations.
Local Open Scope string_scope.
Local Open Scope list_scope.

(** Two files and a known tree, two of them in a common directory. *)
Definition ex_inputs : list input :=
  [("src/a.c", Some (File, blob_id toyH "A")); ("lib", Some (Tree, tree_id toyH "")); ("src/./gen/../b.sh", Some (Executable, blob_id toyH "A"))].
Definition ex_cas : cas := [(false, "A"); (true, "")].
Lemma ex_cas_complete : complete toyH ex_cas.
Proof.
  intros data d [E|[E|[]]] N; [discriminate E|]. injection E as <-. exfalso.
  assert (G : git_tree_object [] "") by (exists []; split; [tauto|split; [constructor|reflexivity]]).
  apply (named_items toyH [] "" d) in N; [|split; constructor|exact G]. destruct N as (i & [] & _).
Qed.
Lemma ex_cas_has p t id : In (p, Some (t, id)) ex_inputs -> has toyH ex_cas (IsTreeObject t, id).
Proof.
  intros [E|[E|[E|[]]]]; injection E as <- <- <-; [exists "A"|exists ""|exists "A"]; (split; [cbn; tauto|reflexivity]).
Qed.

Lemma free_list c s : existsb (Ascii.eqb c) (list_ascii_of_string s) = false -> free_of c s.
Proof.
  intros E I. assert (X : existsb (Ascii.eqb c) (list_ascii_of_string s) = true); [|congruence].
  apply existsb_exists. exists c. split; [exact I|apply Ascii.eqb_refl].
Qed.
Definition nameableb (p : string) : bool :=
  forallb (fun c => negb (existsb (Ascii.eqb (ascii_of_N 0)) (list_ascii_of_string c)) && N.leb (N.of_nat (String.length c)) 65535)%bool (split_slash p).
Lemma nameableb_ok p : nameableb p = true -> nameable p.
Proof.
  unfold nameableb, nameable. rewrite forallb_forall, Forall_forall. intros F c Hc. specialize (F c Hc).
  apply andb_true_iff in F as [F1 F2]. apply negb_true_iff in F1. split; [now apply free_list|now apply N.leb_le].
Qed.

Definition tidyb (p : string) : bool :=
  let c := last (split_slash p) "" in
  (negb (String.eqb c "") && negb (String.eqb c ".") && negb (String.eqb c "..") && negb (existsb (Ascii.eqb "/") (list_ascii_of_string c)))%bool.
Lemma tidyb_ok p : tidyb p = true -> tidy p.
Proof.
  unfold tidyb. rewrite !andb_true_iff, !negb_true_iff. intros [[[A B] C] D]. left.
  repeat split; [now apply String.eqb_neq|now apply String.eqb_neq|now apply String.eqb_neq|now apply free_list].
Qed.
Definition goodb (i : input) : bool :=
  (tidyb (fst i) && nameableb (fst i) && match snd i with Some (_, id) => Nat.eqb (String.length id) 20 | None => true end)%bool.
Lemma goodb_ok i : goodb i = true -> good_input i.
Proof.
  unfold goodb. rewrite !andb_true_iff. intros [[A B] C]. split; [now apply tidyb_ok|]. split; [now apply nameableb_ok|].
  intros t id E. rewrite E in C. now apply Nat.eqb_eq.
Qed.

Lemma ex_inputs_good : Forall good_input ex_inputs.
Proof. apply Forall_forall. intros i [<-|[<-|[<-|[]]]]; apply goodb_ok; vm_compute; reflexivity. Qed.

Definition ex_root_check : bool :=
  match input_root toyH (fun l => rev l) (map art ex_inputs) with Some bt => Nat.eqb (List.length (bt_nodes bt)) 1 | None => false end.
Lemma ex_root_ok : ex_root_check = true.
Proof. vm_compute. reflexivity. Qed.
Lemma ex_inputs_free :
  Forall (fun i => inside (fst i)) ex_inputs /\ conflict_free ex_inputs /\ Forall (fun i => snd i <> None) ex_inputs.
Proof.
  assert (E := ex_root_ok). unfold ex_root_check in E.
  destruct (input_root toyH (fun l => rev l) (map art ex_inputs)) as [bt|] eqn:R; [|discriminate].
  destruct (input_root_some toyH toy_ids _ (fun l => Permutation_sym (Permutation_rev l)) ex_inputs bt ex_inputs_good R) as (A & B & C & _). auto.
Qed.

(** A path with a trailing slash leads to an entry without name. *)
Definition slash_check : bool :=
  match input_root toyH (fun l => l) [("foo/", Some (ToHexString i1, File))] with
  | Some bt => match bt_nodes bt with [n] => String.eqb (b_data (bt_blob n)) (git_text ("", (File, i1))) | _ => false end
  | None => false
  end.
Lemma slash_ok : slash_check = true.
Proof. vm_compute. reflexivity. Qed.
Lemma slash_root : exists bt n, input_root toyH (fun l => l) [("foo/", Some (ToHexString i1, File))] = Some bt /\
  In n (bt_nodes bt) /\ b_data (bt_blob n) = git_text ("", (File, i1)).
Proof.
  assert (E := slash_ok). unfold slash_check in E.
  destruct (input_root toyH (fun l => l) [("foo/", Some (ToHexString i1, File))]) as [bt|] eqn:R; [|discriminate].
  destruct (bt_nodes bt) as [|n [|]] eqn:N; try discriminate. exists bt, n. split; [reflexivity|]. split; [rewrite N; now left|].
  now apply String.eqb_eq.
Qed.

(** ** Transfers *)

Definition link : string := "../x".
Definition ex_tree (H : string -> string) : string := git_text ("l", (Symlink, blob_id H link)).
Definition ex_src (H : string -> string) (d : digest) : option string :=
  if digest_eqb d (true, tree_id H (ex_tree H)) then Some (ex_tree H)
  else if digest_eqb d (false, blob_id H link) then Some link
  else None.
Lemma ex_consistent H : consistent H (ex_src H).
Proof.
  intros d data. unfold ex_src. destruct (digest_eqb_spec d (true, tree_id H (ex_tree H))) as [->|]; [intros E; injection E as <-; reflexivity|].
  destruct (digest_eqb_spec d (false, blob_id H link)) as [->|]; [intros E; injection E as <-; reflexivity|discriminate].
Qed.
Lemma ex_items H : raw_ids H -> valid_items [("l", (Symlink, blob_id H link))].
Proof.
  intros HL. split; [constructor; [intros []|constructor]|]. constructor; [|constructor]. split; [|apply HL].
  split; [discriminate|]. split; [|split; [|cbn; lia]]; intros [E|[]]; discriminate E.
Qed.
Lemma ex_object H : git_tree_object [("l", (Symlink, blob_id H link))] (ex_tree H).
Proof.
  exists [("l", (Symlink, blob_id H link))]. split; [tauto|]. split; [constructor; constructor|]. reflexivity.
Qed.
Lemma ex_holds H : raw_ids H -> holds (ex_src H) 2 (true, tree_id H (ex_tree H)).
Proof.
  intros HL. exists (ex_tree H). split.
  - unfold ex_src. destruct (digest_eqb_spec (true, tree_id H (ex_tree H)) (true, tree_id H (ex_tree H))); [reflexivity|congruence].
  - intros _. exists [("l", (Symlink, blob_id H link))]. split; [now apply ex_items|]. split; [apply ex_object|].
    intros i [<-|[]]. exists link. split; [|cbn; discriminate]. change (ex_src H (false, blob_id H link) = Some link). unfold ex_src.
    destruct (digest_eqb_spec (false, blob_id H link) (true, tree_id H (ex_tree H))) as [E|]; [discriminate E|].
    destruct (digest_eqb_spec (false, blob_id H link) (false, blob_id H link)); [reflexivity|congruence].
Qed.

Lemma items_links H : raw_ids H -> exists x, GitTree.Model.ReadTree (fun _ => false) false (ex_tree H) = x /\ x = None.
Proof.
  intros HL. eexists. split; [reflexivity|].
  assert (F : Forall valid_item [("l", (Symlink, blob_id H link))]) by exact (proj2 (ex_items H HL)).
  assert (P := parse_texts _ F (S (String.length (ex_tree H)))). specialize (P (Nat.lt_succ_diag_r _)).
  unfold GitTree.Model.ReadTree, ReadDirectTree. 
  change (String.concat "" (map git_text [("l", (Symlink, blob_id H link))])) with (ex_tree H) in P. rewrite P.
  unfold triple, walk_entry, ToRawString. cbn [map fold_left fst snd]. rewrite hex_decode_encode. reflexivity.
Qed.

(** Reading the tree of another store fails as the link leads upwards; the tree is transferred without the link. *)
Lemma local_refuted H : raw_ids H ->
  exists s', steps H (ex_src H) (fun _ => False)
    (LocalRetrieveToCas H (fun _ => false) 2 [("", (Tree, tree_id H (ex_tree H)))], []) (Ret true, s') /\ ~ complete H s'.
Proof.
  intros HL. set (T := (true, tree_id H (ex_tree H))). exists [(true, ex_tree H)]. split.
  - assert (ST : ex_src H T = Some (ex_tree H)).
    { unfold ex_src. destruct (digest_eqb_spec T (true, tree_id H (ex_tree H))) as [|N]; [reflexivity|destruct (N eq_refl)]. }
    assert (NI : tree_items (fun _ => false) (ex_tree H) = None).
    { destruct (items_links H HL) as (x & E & X). unfold tree_items. now rewrite E, X. }
    cbn [LocalRetrieveToCas]. cbn [map fst dedup filter snd]. change (entry_digest ("", (Tree, tree_id H (ex_tree H)))) with T.
    eapply steps_step; [apply (step_missing _ _ _ _ _ _ [T]); [apply incl_refl|auto]|].
    cbn [select lookup]. destruct (digest_eqb_spec T T) as [_|N]; [|destruct (N eq_refl)]. cbn [select local_loop fst snd IsTreeObject].
    change (entry_digest ("", (Tree, tree_id H (ex_tree H)))) with T. eapply steps_step; [apply step_read_tree; right; reflexivity|]. rewrite ST. unfold direct_entries. rewrite NI.
    cbn [LocalRetrieveToCas map fst dedup bind].
    eapply steps_step; [apply (step_missing _ _ _ _ _ _ []); [apply incl_refl|intros d []]|]. cbn [select local_loop bind].
    eapply steps_step; [apply (step_uploaded _ _ _ _ _ _ true); intros _ b []|]. cbn [bind].
    eapply steps_step; [apply step_read_data; right; reflexivity|]. rewrite ST. cbn [existsb local_loop fst snd].
    eapply steps_step; [apply step_store; left; reflexivity|]. cbn [b_tree b_data FromMemory IsTreeObject].
    eapply steps_step; [apply (step_uploaded _ _ _ _ _ _ true)|apply steps_refl].
    intros _ b [<-|[]]. exists (ex_tree H). split; [now left|reflexivity].
  - intros C. specialize (C (ex_tree H) (false, blob_id H link) (or_introl eq_refl)).
    destruct C as (data & [E|[]] & _); [|discriminate E].
    exists [("l", (Symlink, blob_id H link))], ("l", (Symlink, blob_id H link)). split; [now apply ex_items|].
    split; [apply ex_object|]. split; [now left|reflexivity].
Qed.
