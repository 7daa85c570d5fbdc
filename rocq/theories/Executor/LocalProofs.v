(** Proofs about the local execution of actions. *)
From Coq Require Import String Ascii List Bool NArith ZArith Permutation Lia.
From Verif Require Import Common.Strs Path.Model Describe.Model Executor.Wire Executor.WireProofs Executor.Local Executor.LocalSpec.
Import ListNotations.
Local Open Scope string_scope.
Local Open Scope list_scope.

(** ** Sorting *)

Lemma ltb_false_ge a b : str_ltb a b = false <-> ~ str_lt a b.
Proof. rewrite <- str_ltb_lt. destruct (str_ltb a b); split; congruence. Qed.

Lemma insert_comm a b l : insert a (insert b l) = insert b (insert a l).
Proof.
  induction l as [|x r IH]; cbn [insert].
  - destruct (str_trichotomy a b) as [[L|E]|G].
    + assert (str_ltb b a = false) as -> by (apply ltb_false_ge; intros G; exact (str_lt_asym _ _ L G)).
      now rewrite (proj2 (str_ltb_lt a b) L).
    + now subst.
    + assert (str_ltb a b = false) as -> by (apply ltb_false_ge; intros L; exact (str_lt_asym _ _ L G)).
      now rewrite (proj2 (str_ltb_lt b a) G).
  - destruct (str_ltb x b) eqn:XB; destruct (str_ltb x a) eqn:XA; cbn [insert]; rewrite ?XA, ?XB.
    + now rewrite IH.
    + apply str_ltb_lt in XB. apply ltb_false_ge in XA.
      assert (str_ltb a b = true) as ->; [|reflexivity]. apply str_ltb_lt.
      destruct (str_trichotomy a x) as [[L|E]|G]; [exact (str_lt_trans _ _ _ L XB)|now subst|contradiction].
    + apply str_ltb_lt in XA. apply ltb_false_ge in XB.
      assert (str_ltb b a = true) as ->; [|reflexivity]. apply str_ltb_lt.
      destruct (str_trichotomy b x) as [[L|E]|G]; [exact (str_lt_trans _ _ _ L XA)|now subst|contradiction].
    + destruct (str_trichotomy a b) as [[L|E]|G].
      * assert (str_ltb b a = false) as -> by (apply ltb_false_ge; intros G; exact (str_lt_asym _ _ L G)).
        now rewrite (proj2 (str_ltb_lt a b) L).
      * now subst.
      * assert (str_ltb a b = false) as -> by (apply ltb_false_ge; intros L; exact (str_lt_asym _ _ L G)).
        now rewrite (proj2 (str_ltb_lt b a) G).
Qed.

Lemma insert_perm a l : Permutation (a :: l) (insert a l).
Proof.
  induction l as [|x r IH]; cbn [insert]; [reflexivity|]. destruct (str_ltb x a); [|reflexivity].
  etransitivity; [apply perm_swap|]. now constructor.
Qed.

Lemma sort_perm l : Permutation l (sort l).
Proof. induction l as [|a l IH]; cbn; [reflexivity|]. etransitivity; [|apply insert_perm]. now constructor. Qed.

Lemma sort_unique l l' : Permutation l l' -> sort l = sort l'.
Proof.
  induction 1; cbn; [reflexivity|now f_equal|apply insert_comm|congruence].
Qed.

Lemma sort_eq l l' : sort l = sort l' -> Permutation l l'.
Proof. intros E. etransitivity; [apply sort_perm|]. rewrite E. symmetry. apply sort_perm. Qed.

Lemma sort_In x l : In x (sort l) <-> In x l.
Proof. split; apply Permutation_in; [symmetry|]; apply sort_perm. Qed.

Lemma destruct_snoc {A} (l : list A) : l = [] \/ exists x r, l = r ++ [x].
Proof. induction l as [|x l _] using rev_ind; [now left|right; eauto]. Qed.

(** ** Action ids *)

Section Ids.
Variable hash : string -> string.
Variable t : hash_type.

Notation cmd_text := command_message.
Notation act_text := (action_message hash t).

Lemma create_digest_some a x d : CreateActionDigest hash t a x = Some d -> d = blob_digest hash (act_text a x).
Proof.
  unfold CreateActionDigest, CreateActionDigestFromCommandLine, SerializeMessage, action_message.
  change (command_text (request_of a x)) with (cmd_text a).
  destruct (_ <? _)%N; [|discriminate]. destruct (_ <? _)%N; [|discriminate]. intros E. injection E as <-. reflexivity.
Qed.

Lemma blob_digest_inj x y : blob_digest hash x = blob_digest hash y -> x = y \/ collision hash x y.
Proof.
  intros E. destruct (string_dec x y) as [->|N]; [now left|right]. split; [exact N|]. now injection E.
Qed.

Lemma same_id a b x y da db : ok_action t a -> ok_action t b ->
  CreateActionDigest hash t a x = Some da -> CreateActionDigest hash t b y = Some db -> d_hash da = d_hash db ->
  (same_action a b /\ x = y) \/ collision hash (cmd_text a) (cmd_text b) \/ collision hash (act_text a x) (act_text b y).
Proof.
  intros [Wa Ra] [Wb Rb] A B E. apply create_digest_some in A, B. subst da db. cbn in E.
  destruct (string_dec (act_text a x) (act_text b y)) as [T|N]; [|right; right; now split].
  apply action_text_inj in T; [|intros X; cbn; now rewrite (Wa X), (Wb X)|reflexivity|exact Ra|exact Rb].
  cbn [request_of q_root q_timeout q_skip_cache q_props] in T. destruct T as (C & R & T & S & P).
  apply blob_digest_inj in C. destruct C as [C|C]; [|auto]. left.
  apply command_text_inj in C. cbn [request_of q_command q_env q_files q_dirs q_props q_cwd q_paths] in C.
  destruct C as (C1 & C2 & C3 & C4 & C5 & C6 & C7). repeat split; assumption.
Qed.
End Ids.

(** ** Artifacts of a result *)

Lemma fold_aemplace {V} (l : list (string * V)) : forall m, sorted_keys m ->
  sorted_keys (fold_left (fun m e => aemplace (fst e) (snd e) m) l m) /\
  forall k, alookup k (fold_left (fun m e => aemplace (fst e) (snd e) m) l m) =
            match alookup k m with Some v => Some v | None => alookup k l end.
Proof.
  induction l as [|[k v] l IH]; intros m S; cbn [fold_left fst snd].
  - split; [exact S|]. intros k. now destruct (alookup k m).
  - destruct (IH (aemplace k v m) (aemplace_sorted k v m S)) as [S' L]. split; [exact S'|]. intros x.
    rewrite L. rewrite (aemplace_lookup k v m x S). cbn [alookup].
    destruct (alookup x m); [reflexivity|]. now destruct (String.eqb x k).
Qed.

Lemma alookup_In_key {V} k (l : list (string * V)) : In k (map fst l) -> exists v, alookup k l = Some v.
Proof.
  induction l as [|[x v] l IH]; cbn; [intros []|]. intros H. destruct (String.eqb_spec k x); [eauto|].
  destruct H as [H|H]; [congruence|auto].
Qed.

Lemma alookup_In_pair {V} k (v : V) l : alookup k l = Some v -> In (k, v) l.
Proof.
  induction l as [|[x u] l IH]; cbn; [discriminate|]. destruct (String.eqb_spec k x); [|auto].
  intros E. left. congruence.
Qed.

Section Artifacts.
Variable hash : string -> string.
Variable t : hash_type.

Lemma artifacts_lookup r k : alookup k (artifacts_of hash r) = alookup k (populate_entries hash r).
Proof.
  unfold artifacts_of. destruct (fold_aemplace (populate_entries hash r) [] ltac:(constructor)) as [_ L].
  rewrite L. reflexivity.
Qed.

Definition info_of (c : collected) : object_info :=
  match c with
  | CFile d x => mkInfo d (if x then Executable else File) false
  | CLink x => link_info hash x
  | CDir d => mkInfo d Tree false
  end.

(** What an addition does to the entries. *)
Definition adds (add : string -> collected -> result -> result) : Prop := forall p c r e,
  In e (populate_entries hash (add p c r)) -> In e (populate_entries hash r) \/ e = (p, info_of c).

Ltac entries := unfold populate_entries; cbn [add_file add_dir add_flink add_dlink add_link r_files r_dirs r_flinks r_dlinks r_links];
  rewrite ?map_app, ?in_app_iff; cbn [map In fst snd].

Lemma adds_path : adds add_path.
Proof. intros p [d x|x|d] r e; cbn [add_path info_of]; entries; intuition. Qed.
Lemma adds_for_file m : adds (add_for_file m).
Proof. intros p [d x|x|d] r e; cbn [add_for_file info_of]; destruct m; entries; intuition. Qed.
Lemma adds_for_dir m : adds (add_for_dir m).
Proof. intros p [d x|x|d] r e; cbn [add_for_dir info_of]; destruct m; entries; intuition. Qed.

Lemma collect_sound w get add : adds add ->
  (forall p c, get p = Some c -> seen hash w p (info_of c)) ->
  forall ps r r' ok, collect get add ps r = (r', ok) ->
  forall p i, In (p, i) (populate_entries hash r') -> In (p, i) (populate_entries hash r) \/ seen hash w p i.
Proof.
  intros A G. induction ps as [|q ps IH]; intros r r' ok E p i H; cbn [collect] in E.
  - left. congruence.
  - destruct (get q) as [c|] eqn:Q; [|left; congruence]. destruct (IH _ _ _ E p i H) as [X|X]; [|auto].
    destruct (A _ _ _ _ X) as [Y|Y]; [auto|]. injection Y as -> ->. right. exact (G _ _ Q).
Qed.

Lemma collect_link_seen c st x : collect_link t c st = Some x ->
  exists y, c = Some y /\ st = true /\ x = CLink y /\ good_link t y.
Proof.
  unfold collect_link, good_link. destruct c as [y|]; [|discriminate].
  destruct t; cbn; [destruct (PathIsNonUpwards y) eqn:U; cbn; [|discriminate]|];
    (destruct st; [|discriminate]); intros E; injection E as <-; exists y; repeat split; auto; discriminate.
Qed.

Ltac get_seen := intros p c; unfold CollectOutputPath, CollectOutputFileOrSymlink, CollectOutputDirOrSymlink;
  destruct (w_at _ p) as [[x [d|]|l st|[d|]]|] eqn:W; try discriminate;
  [..|]; intros E;
  first [apply collect_link_seen in E; destruct E as (y & -> & -> & -> & _); right; left; exists y; split; [exact W|reflexivity]
        |injection E as <-; left; exists x, d; split; [exact W|reflexivity]
        |injection E as <-; right; right; exists d; split; [exact W|reflexivity]].

Lemma path_seen w : forall p c, CollectOutputPath t w p = Some c -> seen hash w p (info_of c).
Proof. get_seen. Qed.
Lemma file_seen w : forall p c, CollectOutputFileOrSymlink t w p = Some c -> seen hash w p (info_of c).
Proof. get_seen. Qed.
Lemma dir_seen w : forall p c, CollectOutputDirOrSymlink t w p = Some c -> seen hash w p (info_of c).
Proof. get_seen. Qed.

Lemma outputs_sound a w r r' ok : CollectAndStoreOutputs t a w r = (r', ok) ->
  forall p i, In (p, i) (populate_entries hash r') -> In (p, i) (populate_entries hash r) \/ seen hash w p i.
Proof.
  unfold CollectAndStoreOutputs.
  assert (forall m, (let '(r, ok) := collect (CollectOutputFileOrSymlink t w) (add_for_file m) (a_files a) r in
      if ok then collect (CollectOutputDirOrSymlink t w) (add_for_dir m) (a_dirs a) r else (r, false)) = (r', ok) ->
      forall p i, In (p, i) (populate_entries hash r') -> In (p, i) (populate_entries hash r) \/ seen hash w p i) as L.
  { intros m. destruct (collect (CollectOutputFileOrSymlink t w) _ _ _) as [r1 ok1] eqn:C1. intros E p i H.
    destruct ok1.
    - destruct (collect_sound w _ _ (adds_for_dir m) (dir_seen w) _ _ _ _ E p i H) as [X|X]; [|auto].
      exact (collect_sound w _ _ (adds_for_file m) (file_seen w) _ _ _ _ C1 p i X).
    - injection E as <- <-. exact (collect_sound w _ _ (adds_for_file m) (file_seen w) _ _ _ _ C1 p i H). }
  destruct (a_mode a); [apply L| |apply L].
  intros E p i H. exact (collect_sound w _ _ adds_path (path_seen w) _ _ _ _ E p i H).
Qed.

Lemma collect_exit get add : (forall p c r, r_exit (add p c r) = r_exit r) ->
  forall ps r r' ok, collect get add ps r = (r', ok) -> r_exit r' = r_exit r.
Proof.
  intros A. induction ps as [|q ps IH]; intros r r' ok E; cbn [collect] in E; [congruence|].
  destruct (get q); [|congruence]. rewrite (IH _ _ _ E). apply A.
Qed.

Lemma outputs_exit a w r r' ok : CollectAndStoreOutputs t a w r = (r', ok) -> r_exit r' = r_exit r.
Proof.
  unfold CollectAndStoreOutputs.
  assert (forall m p c r, r_exit (add_for_file m p c r) = r_exit r) as F by (intros [] p [] ?; reflexivity).
  assert (forall m p c r, r_exit (add_for_dir m p c r) = r_exit r) as D by (intros [] p [] ?; reflexivity).
  assert (forall m, (let '(r, ok) := collect (CollectOutputFileOrSymlink t w) (add_for_file m) (a_files a) r in
      if ok then collect (CollectOutputDirOrSymlink t w) (add_for_dir m) (a_dirs a) r else (r, false)) = (r', ok) ->
      r_exit r' = r_exit r) as L.
  { intros m. destruct (collect (CollectOutputFileOrSymlink t w) _ _ _) as [r1 ok1] eqn:C1. intros E.
    apply (collect_exit _ _ (F m)) in C1. destruct ok1.
    - apply (collect_exit _ _ (D m)) in E. congruence.
    - congruence. }
  destruct (a_mode a); [apply L| |apply L].
  apply collect_exit. intros p [] ?; reflexivity.
Qed.
End Artifacts.

(** ** Completeness of collecting *)

Section Complete.
Variable hash : string -> string.
Variable t : hash_type.

Lemma collect_all get add (P : string -> result -> Prop) :
  (forall p q c r, P p r -> P p (add q c r)) ->
  forall ps r, (forall p, In p ps -> exists c, get p = Some c /\ forall r, P p (add p c r)) ->
  exists r', collect get add ps r = (r', true) /\ (forall p, In p ps -> P p r') /\ (forall p, P p r -> P p r').
Proof.
  intros M. induction ps as [|q ps IH]; intros r H; cbn [collect].
  - exists r. repeat split; [intros p []|auto].
  - destruct (H q (or_introl eq_refl)) as (c & Q & A). rewrite Q.
    destruct (IH (add q c r)) as (r' & E & L & K); [intros p I'; apply H; now right|].
    exists r'. split; [exact E|]. split; [|intros p X; apply K, M, X].
    intros p [<-|I']; [apply K, A|apply L, I'].
Qed.

Lemma collect_keep get add (P : string -> result -> Prop) :
  (forall p q c r, P p r -> P p (add q c r)) ->
  forall ps r r' ok, collect get add ps r = (r', ok) -> forall p, P p r -> P p r'.
Proof.
  intros M. induction ps as [|q ps IH]; intros r r' ok E p H; cbn [collect] in E; [congruence|].
  destruct (get q); [|congruence]. exact (IH _ _ _ E p (M _ _ _ _ H)).
Qed.

Definition has_file (p : string) (r : result) : Prop := In p (keys (r_files r) ++ keys (r_flinks r) ++ keys (r_dlinks r)).
Definition has_dir (p : string) (r : result) : Prop := In p (keys (r_dirs r)).
Definition has_path (p : string) (r : result) : Prop :=
  In p (keys (r_files r) ++ keys (r_flinks r) ++ keys (r_dlinks r) ++ keys (r_dirs r)).

Ltac has := unfold has_file, has_dir, has_path, keys; cbn; rewrite ?map_app, ?in_app_iff; cbn; intuition.

Lemma mem_In s l : mem s l = true <-> In s l.
Proof.
  unfold mem. rewrite existsb_exists. split.
  - intros (x & H & E). apply String.eqb_eq in E. now subst.
  - intros H. exists s. split; [exact H|apply String.eqb_refl].
Qed.

Lemma contains_outputs_spec r fs ds : contains_outputs r fs ds = true <->
  (forall p, In p fs -> has_file p r) /\ (forall p, In p ds -> has_dir p r).
Proof.
  unfold contains_outputs. rewrite andb_true_iff, !forallb_forall. unfold has_file, has_dir.
  setoid_rewrite mem_In. reflexivity.
Qed.
Lemma contains_paths_spec r ps : contains_paths r ps = true <-> forall p, In p ps -> has_path p r.
Proof. unfold contains_paths. rewrite forallb_forall. setoid_rewrite mem_In. reflexivity. Qed.

Lemma good_link_collect c : good_link t c -> collect_link t (Some c) true = Some (CLink c).
Proof. unfold good_link, collect_link. destruct t; cbn; [|reflexivity]. intros ->; reflexivity. Qed.

Lemma file_there_get w p m : file_there t w p ->
  exists c, CollectOutputFileOrSymlink t w p = Some c /\ forall r, has_file p (add_for_file m p c r).
Proof.
  unfold CollectOutputFileOrSymlink. intros [(x & d & ->)|(c & -> & G)].
  - exists (CFile d x). split; [reflexivity|]. intros r. has.
  - exists (CLink c). split; [now apply good_link_collect|]. intros r. destruct m; has.
Qed.

Lemma dir_there_get w p m : dir_there w p ->
  exists c, CollectOutputDirOrSymlink t w p = Some c /\ forall r, has_dir p (add_for_dir m p c r).
Proof.
  unfold CollectOutputDirOrSymlink. intros (d & ->). exists (CDir d). split; [reflexivity|]. intros r. has.
Qed.

Lemma file_mono m p q c r : has_file p r -> has_file p (add_for_file m q c r).
Proof. destruct c, m; has. Qed.
Lemma file_mono' m p q c r : has_file p r -> has_file p (add_for_dir m q c r).
Proof. destruct c, m; has. Qed.
Lemma dir_mono m p q c r : has_dir p r -> has_dir p (add_for_dir m q c r).
Proof. destruct c, m; has. Qed.
Lemma path_mono p q c r : has_path p r -> has_path p (add_path q c r).
Proof. destruct c; has. Qed.

Definition contains (a : local_action) (r : result) : bool :=
  match a_mode a with V2_1 => contains_paths r (a_paths a) | _ => contains_outputs r (a_files a) (a_dirs a) end.

Lemma outputs_complete a w r : plain_outputs t a w ->
  exists r', CollectAndStoreOutputs t a w r = (r', true) /\ contains a r' = true.
Proof.
  unfold plain_outputs, CollectAndStoreOutputs, contains.
  assert (forall m, (forall p, In p (a_files a) -> file_there t w p) /\ (forall p, In p (a_dirs a) -> dir_there w p) ->
     exists r', (let '(r, ok) := collect (CollectOutputFileOrSymlink t w) (add_for_file m) (a_files a) r in
      if ok then collect (CollectOutputDirOrSymlink t w) (add_for_dir m) (a_dirs a) r else (r, false)) = (r', true) /\
      contains_outputs r' (a_files a) (a_dirs a) = true) as L.
  { intros m [F D].
    destruct (collect_all (CollectOutputFileOrSymlink t w) (add_for_file m) has_file (file_mono m) (a_files a) r)
      as (r1 & E1 & F1 & _); [intros p I'; apply file_there_get, F, I'|]. rewrite E1.
    destruct (collect_all (CollectOutputDirOrSymlink t w) (add_for_dir m) has_dir (dir_mono m) (a_dirs a) r1)
      as (r2 & E2 & D2 & _); [intros p I'; apply dir_there_get, D, I'|].
    exists r2. split; [exact E2|]. apply contains_outputs_spec. split; [|exact D2].
    intros p I'. exact (collect_keep _ _ has_file (file_mono' m) _ _ _ _ E2 p (F1 p I')). }
  destruct (a_mode a); [apply L| |apply L].
  intros H.
  destruct (collect_all (CollectOutputPath t w) add_path has_path path_mono (a_paths a) r) as (r1 & E1 & F1 & _).
  - intros p I'. unfold CollectOutputPath. destruct (H p I') as [(x & d & ->)|(d & ->)].
    + exists (CFile d x). split; [reflexivity|]. intros r1. has.
    + exists (CDir d). split; [reflexivity|]. intros r1. has.
  - exists r1. split; [exact E1|]. now apply contains_paths_spec.
Qed.

(** The entries named for declared outputs. *)
Lemma has_file_entry p r : has_file p r -> exists i, In (p, i) (populate_entries hash r) /\ is_file i.
Proof.
  unfold has_file, keys, populate_entries, is_file. rewrite !in_app_iff, !in_map_iff, !map_app.
  intros [([q [d x]] & E & H)|[([q c] & E & H)|([q c] & E & H)]]; cbn in E; subst q; eexists; split.
  - apply in_app_iff. left. apply in_map_iff. eexists. split; [|exact H]. reflexivity.
  - cbn. now destruct x.
  - apply in_app_iff. right. rewrite !in_app_iff. left. right. left. apply in_map_iff. eexists. split; [|exact H]. reflexivity.
  - discriminate.
  - apply in_app_iff. right. rewrite !in_app_iff. left. right. right. apply in_map_iff. eexists. split; [|exact H]. reflexivity.
  - discriminate.
Qed.
Lemma has_dir_entry p r : has_dir p r -> exists i, In (p, i) (populate_entries hash r) /\ is_dir i.
Proof.
  unfold has_dir, keys, populate_entries, is_dir. rewrite in_map_iff. intros ([q d] & E & H). cbn in E. subst q.
  exists (mkInfo d Tree false). split; [|reflexivity]. rewrite !in_app_iff. right. right. apply in_map_iff.
  eexists. split; [|exact H]. reflexivity.
Qed.
Lemma has_path_entry p r : has_path p r -> exists i, In (p, i) (populate_entries hash r).
Proof.
  unfold has_path. rewrite !app_assoc, in_app_iff, <- app_assoc. intros [H|H].
  - destruct (has_file_entry p r H) as (i & X & _). eauto.
  - destruct (has_dir_entry p r H) as (i & X & _). eauto.
Qed.

Lemma seen_fun w p i j : seen hash w p i -> seen hash w p j -> i = j.
Proof.
  intros [(x & d & E & ->)|[(c & E & ->)|(d & E & ->)]] [(x' & d' & E' & ->)|[(c' & E' & ->)|(d' & E' & ->)]];
    rewrite E in E'; try discriminate; injection E' as; subst; reflexivity.
Qed.
End Complete.

(** ** Executing *)

Section Histories.
Variable hash : string -> string.
Variable t : hash_type.

(** A run of [a] in [w] that left the result [r]; [ok] tells whether all outputs were collected. *)
Definition ran (a : local_action) (w : world) (r : result) (ok : bool) : Prop :=
  exists code, w_exit w = Some code /\ a_command a <> [] /\
    CollectAndStoreOutputs t a w (mkResult code [] [] [] [] [] (w_stdout w) (w_stderr w)) = (r, ok).

Lemma ran_sound a w r ok : ran a w r ok ->
  w_exit w = Some (r_exit r) /\
  forall p i, In (p, i) (populate_entries hash r) -> seen hash w p i.
Proof.
  intros (code & W & _ & C). split.
  - apply outputs_exit in C. cbn in C. now rewrite C.
  - intros p i H. destruct (outputs_sound hash t _ _ _ _ _ C p i H) as [X|X]; [destruct X|exact X].
Qed.

Lemma run_spec id f a w ac o ac' : Run t id f a w ac = (o, ac') ->
  match o with
  | None => ac' = ac
  | Some r => exists ok, ran a w r ok /\
      (ac' = ac \/ (ok = true /\ f = CacheOutput /\ w_store w = true /\ ac' = ainsert (d_hash id) r ac))
  end.
Proof.
  unfold Run. destruct (w_exit w) as [code|] eqn:W; [|intros E; injection E as <- <-; reflexivity].
  destruct (a_command a) as [|x xs] eqn:C; [intros E; injection E as <- <-; reflexivity|].
  destruct (CollectAndStoreOutputs t a w _) as [r ok] eqn:O. intros E. injection E as <- <-.
  exists ok. split; [exists code; rewrite C; repeat split; [exact W|discriminate|exact O]|].
  destruct ok; [|now left]. destruct f; cbn [andb]; try (now left). destruct (w_store w); [right; auto|now left].
Qed.

(** How the cache can change. *)
Lemma execute_cache ac f a w o ac' x : Execute hash t ac f a w = (o, ac', x) ->
  ac' = ac \/
  exists id r, f = CacheOutput /\ x = true /\ CreateActionDigest hash t a false = Some id /\ ran a w r true /\
    w_store w = true /\ ac' = ainsert (d_hash id) r ac.
Proof.
  unfold Execute. destruct (CreateActionDigest hash t a (negb (CacheEnabled f))) as [id|] eqn:D;
    [|intros E; injection E as <- <- <-; now left].
  destruct (if CacheEnabled f then _ else _) as [h|] eqn:H; [intros E; injection E as <- <- <-; now left|].
  destruct (ExecutionEnabled f) eqn:EE; [|intros E; injection E as <- <- <-; now left].
  destruct (Run t id f a w ac) as [o1 ac1] eqn:R. apply run_spec in R.
  destruct o1 as [r|].
  - destruct R as (ok & Q & [->|(-> & -> & S & ->)]).
    + destruct f; try destruct (CreateActionDigest hash t a false); intros E; injection E as <- <- <-; now left.
    + intros E. injection E as <- <- <-. right. exists id, r. auto 10.
  - subst ac1. intros E. injection E as <- <- <-. now left.
Qed.

Lemma execute_hit ac f a w p ac' : Execute hash t ac f a w = (Some p, ac', false) ->
  CacheEnabled f = true /\ p_cached p = true /\ ac' = ac /\ exists id,
  CreateActionDigest hash t a false = Some id /\ p_id p = d_hash id /\ alookup (d_hash id) ac = Some (p_result p) /\
  r_exit (p_result p) = 0%Z /\ contains a (p_result p) = true.
Proof.
  unfold Execute. destruct (CacheEnabled f) eqn:CE; cbn [negb];
    (destruct (CreateActionDigest hash t a _) as [id|] eqn:D; [|discriminate]).
  - destruct (alookup (d_hash id) ac) as [r|] eqn:L.
    + fold (contains a r). destruct ((r_exit r =? 0)%Z && contains a r) eqn:C.
      * intros E. injection E as <- <-. apply andb_true_iff in C. destruct C as [C1 C2]. apply Z.eqb_eq in C1.
        repeat split; auto. exists id. auto.
      * destruct (ExecutionEnabled f); [|discriminate]. destruct (Run t id f a w ac) as [[r'|] ac1]; [|discriminate].
        destruct f; try discriminate.
    + destruct (ExecutionEnabled f); [|discriminate]. destruct (Run t id f a w ac) as [[r'|] ac1]; [|discriminate].
      destruct f; try discriminate.
  - destruct (ExecutionEnabled f); [|discriminate]. destruct (Run t id f a w ac) as [[r'|] ac1]; [|discriminate].
    destruct f; try discriminate. destruct (CreateActionDigest hash t a false); discriminate.
Qed.

Lemma execute_ran ac f a w p ac' : Execute hash t ac f a w = (Some p, ac', true) ->
  ExecutionEnabled f = true /\ (p_cached p = true <-> f = PretendCached) /\
  (exists ok, ran a w (p_result p) ok) /\
  exists id, CreateActionDigest hash t a (match f with DoNotCacheOutput => true | _ => false end) = Some id /\ p_id p = d_hash id.
Proof.
  unfold Execute. destruct (CreateActionDigest hash t a (negb (CacheEnabled f))) as [id|] eqn:D; [|discriminate].
  destruct (if CacheEnabled f then _ else _) as [h|] eqn:H; [discriminate|].
  destruct (ExecutionEnabled f) eqn:EE; [|discriminate].
  destruct (Run t id f a w ac) as [[r|] ac1] eqn:R; [|discriminate]. apply run_spec in R. destruct R as (ok & Q & _).
  destruct f; try discriminate.
  - intros E. injection E as <- <-. cbn. repeat split; try discriminate; eauto.
  - intros E. injection E as <- <-. cbn. repeat split; try discriminate; eauto.
  - destruct (CreateActionDigest hash t a false) as [id'|] eqn:D'; [|discriminate].
    intros E. injection E as <- <-. cbn. repeat split; eauto.
Qed.

(** A filter on keys. *)
Lemma alookup_filter {V} k x (l : list (string * V)) :
  alookup k (filter (fun y => negb (String.eqb (fst y) x)) l) = if String.eqb k x then None else alookup k l.
Proof.
  induction l as [|[y v] l IH]; cbn; [now destruct (String.eqb k x)|].
  destruct (String.eqb_spec y x) as [->|N]; cbn.
  - rewrite IH. now destruct (String.eqb k x).
  - rewrite IH. destruct (String.eqb_spec k y) as [->|]; [|reflexivity].
    destruct (String.eqb_spec y x); [congruence|reflexivity].
Qed.

Notation after := (after hash t).

Lemma after_app es es' : after (es ++ es') = fold_left (step hash t) es' (after es).
Proof. unfold Local.after. now rewrite fold_left_app. Qed.
Lemma after_snoc es e : after (es ++ [e]) = step hash t (after es) e.
Proof. now rewrite after_app. Qed.

(** Every entry comes from the latest run that stored one under that key. *)
Lemma entry_origin es : forall k r, alookup k (after es) = Some r ->
  exists pre a w post id, es = pre ++ Exec CacheOutput a w :: post /\
    CreateActionDigest hash t a false = Some id /\ d_hash id = k /\ ran a w r true /\
    executed (Execute hash t (after pre) CacheOutput a w) = true /\
    forall p1 p2, post = p1 ++ p2 -> alookup k (after (pre ++ Exec CacheOutput a w :: p1)) = Some r.
Proof.
  induction es as [|e es IH] using rev_ind; intros k r H; [discriminate|].
  pose proof H as H0.
  rewrite after_snoc in H.
  assert (alookup k (after es) = Some r \/
    exists a w id, e = Exec CacheOutput a w /\ CreateActionDigest hash t a false = Some id /\ d_hash id = k /\ ran a w r true /\
      executed (Execute hash t (after es) CacheOutput a w) = true) as C.
  { destruct e as [f a w|id]; cbn [step] in H.
    - destruct (Execute hash t (after es) f a w) as [[o ac'] x] eqn:E. cbn in H.
      destruct (execute_cache _ _ _ _ _ _ _ E) as [->|(id & r' & -> & -> & D & R & S & ->)]; [now left|].
      rewrite ainsert_lookup in H. destruct (String.eqb_spec k (d_hash id)) as [->|N]; [|now left].
      injection H as <-. right. exists a, w, id. rewrite E. auto.
    - rewrite alookup_filter in H. destruct (String.eqb k id); [discriminate|now left]. }
  destruct C as [C|(a & w & id & -> & D & K & R & X)].
  - destruct (IH _ _ C) as (pre & a & w & post & id & -> & D & K & R & X & P).
    exists pre, a, w, (post ++ [e]), id. repeat split; auto.
    + now rewrite <- app_assoc.
    + intros p1 p2 E. destruct (destruct_snoc p2) as [->|(z & q & ->)].
      * rewrite app_nil_r in E. subst p1. rewrite <- app_assoc in H0. exact H0.
      * rewrite app_assoc in E. apply app_inj_tail in E. destruct E as [E _]. exact (P _ _ E).
  - exists es, a, w, [], id. repeat split; auto.
    intros p1 p2 E. symmetry in E. apply app_eq_nil in E. destruct E as [-> ->]. exact H0.
Qed.
End Histories.
