(** C89, C90, C91: converting objects between the native and the compatible storage. *)
From Coq Require Import String Ascii List Bool NArith Arith Lia Sorted Permutation.
From Verif Require Import Common.Strs Hex.Model Hex.Proofs Describe.Model Executor.Wire Rehash.Directory Rehash.DirectoryProofs.
From Verif Require Import GitTree.Model GitTree.Spec TreeOps.Spec Expr.OpsProofs.
From Verif Require Import Rehash.Model Rehash.Spec Rehash.Nodes Rehash.Frame Rehash.ToCompatible Rehash.ToNative Rehash.System Rehash.Examples.
Import ListNotations.
Local Open Scope string_scope.
Local Open Scope list_scope.

(** All requests are for nodes of the set. *)
Definition asked_for (names : info -> fnode -> Prop) (U : fnode -> Prop) (s : state) : Prop :=
  forall infos p, In (infos, p) (st_threads s) -> Forall (fun i => exists u, U u /\ names i u) infos.
(** A request was answered; the answer at position [k]. *)
Definition answered (s : state) (infos rs : list info) (k : nat) (i r : info) : Prop :=
  In (infos, Ret (Value rs)) (st_threads s) /\ nth_error infos k = Some i /\ nth_error rs k = Some r.

(** ** C89: an object and what it is converted to stand for the same file or directory. *)

(** From native to compatible: for every schedule of any number of conversions sharing one mapping, with failures and
    garbage collections at any time, every answer is the digest of the [Directory] message, file or link target that
    describes the requested directory, file or link. *)
Theorem C89_to_compatible H H2 utf8 ord source faulty U gc fuel n s infos rs k i r u :
  (forall t, String.length (H t) = 20) -> (forall l, Permutation (ord l) l) ->
  closed U -> (forall v, U v -> named v) -> collision_free H (git_texts H U source) ->
  reachable H H2 utf8 ord false source faulty gc fuel n s -> asked_for (native_info H) U s ->
  answered s infos rs k i r -> U u -> native_info H i u ->
  length rs = length infos /\ fst r = comp_digest H2 (comp_data H2 u).
Proof.
  intros HL OP UC UN NC R Q (I & Ii & Ir) Uu Nu.
  pose proof (to_compatible_system H H2 utf8 ord source faulty U False False gc fuel n HL UC UN (False_ind _) (False_ind _) s OP NC (False_ind _)
    (False_ind _) (False_ind _) R Q infos _ I) as A. cbn in A. apply Forall2_nth in A as [L A]. split; [now symmetry|].
  apply (A k i r Ii Ir u Uu Nu).
Qed.
Print Assumptions C89_to_compatible.

(** That data of a directory is a message which lists just its files, its directories and its links. *)
Theorem C89_messages H2 utf8 es : hex_digests H2 utf8 -> expressible H2 utf8 (FDir es) ->
  exists d, ParseDirectory utf8 (comp_data H2 (FDir es)) = Some d /\
  (forall x e g, In (x, (e, g)) (dm_files d) <-> exists data, In (x, FFile e data) es /\ g = comp_digest H2 data) /\
  (forall x g, In (x, g) (dm_dirs d) <-> exists fs, In (x, FDir fs) es /\ g = comp_digest H2 (comp_data H2 (FDir fs))) /\
  (forall x t, In (x, t) (dm_links d) <-> In (x, FLink t) es).
Proof.
  intros HX E. exists (message H2 es). split; [rewrite comp_data_dir; apply parse_directory_ok; now apply good_message|].
  split; [intros; apply in_files|]. split; [|intros; apply in_links].
  intros x g. apply in_dirs.
Qed.
Print Assumptions C89_messages.

(** From compatible to native: the same, if no file and no link has the bytes of one of the directories as content. *)
Theorem C89_to_native_partial H H2 utf8 ord source faulty U gc fuel n s infos rs k i r u :
  (forall t, String.length (H t) = 20) -> hex_digests H2 utf8 ->
  closed U -> (forall v, U v -> named v) -> (forall v, U v -> expressible H2 utf8 v) -> collision_free H2 (comp_texts H2 U source) ->
  (forall v w, U v -> U w -> comp_data H2 v = comp_data H2 w -> is_dir v = is_dir w) ->
  reachable H H2 utf8 ord true source faulty gc fuel n s -> asked_for (compatible_info H2) U s ->
  answered s infos rs k i r -> U u -> compatible_info H2 i u ->
  length rs = length infos /\ fst r = nat_digest H (is_dir u) (git_data H u).
Proof.
  intros HL HX UC UN UE NC UD R Q (I & Ii & Ir) Uu Nu.
  pose proof (to_native_system H H2 utf8 ord source faulty U False False gc fuel n HL UC UN (False_ind _) (False_ind _) s HX UE UD NC (False_ind _)
    (False_ind _) R Q infos _ I) as A. cbn in A. apply Forall2_nth in A as [L A]. split; [now symmetry|].
  apply (A k i r Ii Ir u Uu Nu).
Qed.
Print Assumptions C89_to_native_partial.

(** Without that condition it is false: in the compatible storage, the empty file and the empty directory are the same
    object, and the mapping is by hash alone. After the file was converted, the directory is converted to a blob. *)
Definition empties (u : fnode) : Prop := In u [FFile false ""; FDir []].
Theorem C89_to_native_refuted : exists s infos rs k i r u,
  closed empties /\ (forall v, empties v -> named v) /\ (forall v, empties v -> expressible toy2 any v) /\
  collision_free toy2 (comp_texts toy2 empties [(true, "")]) /\
  reachable toy1 toy2 any (fun l => l) true [(true, "")] false false 5 1 s /\ asked_for (compatible_info toy2) empties s /\
  answered s infos rs k i r /\ empties u /\ compatible_info toy2 i u /\
  fst r <> nat_digest toy1 (is_dir u) (git_data toy1 u) /\ d_tree (fst r) = false /\ is_dir u = true.
Proof.
  destruct (play toy1 toy2 any true [(true, "")] 5
    [Ask [(comp_digest toy2 "", File)]; Ask [(comp_digest toy2 "", Tree)]] (initial 1)) as [s|] eqn:P; [|exfalso; vm_compute in P; discriminate].
  exists s, [(comp_digest toy2 "", Tree)], [(nat_digest toy1 false "", File)], 0, (comp_digest toy2 "", Tree), (nat_digest toy1 false "", File), (FDir []).
  split. { intros es x c [E|[E|[]]]; try discriminate; injection E as <-; intros []. }
  split. { intros v [<-|[<-|[]]]; [exact Logic.I|]. split; [constructor|exact Logic.I]. }
  split. { intros v [<-|[<-|[]]]; repeat split; vm_compute; reflexivity. }
  split. { apply (distinct_free _ [""]); [vm_compute; reflexivity|]. intros x [(u & [<-|[<-|[]]] & ->)|(b & [E|[]])]; [now left|now left|]. injection E as _ <-. now left. }
  split. { eapply play_reachable; [|exact P|apply r_initial]. intros X. vm_compute in X. discriminate. }
  vm_compute in P. injection P as <-.
  split. { intros infos p [E|[E|[]]]; injection E as <- <-; repeat constructor.
    - exists (FFile false ""). split; [now left|split; vm_compute; reflexivity].
    - exists (FDir []). split; [right; now left|split; vm_compute; reflexivity]. }
  split. { split; [|split; vm_compute; reflexivity]. right. left. vm_compute. reflexivity. }
  split; [right; now left|]. split; [split; vm_compute; reflexivity|]. split; [|split; reflexivity]. vm_compute. discriminate.
Qed.
Print Assumptions C89_to_native_refuted.

(** The type in the answer is that of the request, if no two requested nodes, or nodes in requested directories, of different type
    have the same content. *)
Theorem C89_types_partial H H2 utf8 ord (native : bool) source faulty U gc fuel n s infos rs k i r u :
  (forall t, String.length (H t) = 20) -> hex_digests H2 utf8 -> (forall l, Permutation (ord l) l) ->
  closed U -> (forall v, U v -> named v) -> (forall v, U v -> expressible H2 utf8 v) ->
  (if native then collision_free H2 (comp_texts H2 U source) else collision_free H (git_texts H U source)) ->
  (forall v w, U v -> U w -> (if native then comp_data H2 v = comp_data H2 w else is_dir v = is_dir w /\ git_data H v = git_data H w) -> ftype v = ftype w) ->
  reachable H H2 utf8 ord native source faulty gc fuel n s ->
  asked_for (if native then compatible_info H2 else native_info H) U s ->
  answered s infos rs k i r -> U u -> (if native then compatible_info H2 else native_info H) i u ->
  snd r = snd i /\ snd r = ftype u.
Proof.
  intros HL HX OP UC UN UE NC OT R Q (I & Ii & Ir) Uu Nu. destruct native.
  - assert (OT' : True -> forall v w, U v -> U w -> comp_hash H2 v = comp_hash H2 w -> ftype v = ftype w).
    { intros _ v w Uv Uw E. apply OT; auto. apply NC in E; auto; left; eauto. }
    assert (UD : forall v w, U v -> U w -> comp_data H2 v = comp_data H2 w -> is_dir v = is_dir w).
    { intros v w Uv Uw E. rewrite !dir_type. f_equal. now apply OT. }
    pose proof (to_native_system H H2 utf8 ord source faulty U True False gc fuel n HL UC UN (False_ind _) (False_ind _) s HX UE UD NC OT'
      (False_ind _) R Q infos _ I) as A. cbn in A. apply Forall2_nth in A as [L A].
    destruct (A k i r Ii Ir u Uu Nu) as (_ & _ & T). specialize (T Logic.I). split; [exact T|]. rewrite T. apply Nu.
  - assert (OT' : True -> forall v w, U v -> U w -> git_hash H v = git_hash H w -> ftype v = ftype w).
    { intros _ v w Uv Uw E. apply OT; auto. rewrite (git_hash_text H v) in E. apply (native_same_text H U source NC) in E; auto. left. eauto. }
    pose proof (to_compatible_system H H2 utf8 ord source faulty U True False gc fuel n HL UC UN (False_ind _) (False_ind _) s OP NC OT'
      (False_ind _) (False_ind _) R Q infos _ I) as A. cbn in A. apply Forall2_nth in A as [L A].
    destruct (A k i r Ii Ir u Uu Nu) as (_ & _ & T). specialize (T Logic.I). split; [exact T|]. rewrite T. apply Nu.
Qed.
Print Assumptions C89_types_partial.

(** In general it is not: the mapping holds the type of the first node with that content. A script that is executable
    is converted to a file that is not, if a copy of it that is not executable was converted before. *)
Definition copies (u : fnode) : Prop := In u [FFile false "run"; FFile true "run"].
Theorem C89_types_refuted : exists s infos rs k i r u,
  closed copies /\ (forall v, copies v -> named v) /\ (forall v, copies v -> expressible toy2 any v) /\
  collision_free toy1 (git_texts toy1 copies [(false, "run")]) /\
  reachable toy1 toy2 any (fun l => l) false [(false, "run")] false false 5 1 s /\ asked_for (native_info toy1) copies s /\
  answered s infos rs k i r /\ copies u /\ native_info toy1 i u /\
  ftype u = Executable /\ snd i = Executable /\ snd r = File.
Proof.
  set (d := nat_digest toy1 false "run").
  destruct (play toy1 toy2 any false [(false, "run")] 5 [Ask [(d, File)]; Ask [(d, Executable)]] (initial 1)) as [s|] eqn:P; [|exfalso; vm_compute in P; discriminate].
  exists s, [(d, Executable)], [(comp_digest toy2 "run", File)], 0, (d, Executable), (comp_digest toy2 "run", File), (FFile true "run").
  split. { intros es x c [E|[E|[]]]; discriminate. }
  split. { intros v [<-|[<-|[]]]; exact Logic.I. }
  split. { intros v [<-|[<-|[]]]; vm_compute; reflexivity. }
  split. { apply (distinct_free _ [object_text false "run"]); [vm_compute; reflexivity|].
    intros x [(u & [<-|[<-|[]]] & ->)|(b & c & [E|[]] & ->)]; [now left|now left|]. injection E as <- <-. now left. }
  split. { eapply play_reachable; [|exact P|apply r_initial]. intros X. vm_compute in X. discriminate. }
  vm_compute in P. injection P as <-.
  split. { intros infos p [E|[E|[]]]; injection E as <- <-; repeat constructor.
    - exists (FFile false "run"). split; [now left|split; vm_compute; reflexivity].
    - exists (FFile true "run"). split; [right; now left|split; vm_compute; reflexivity]. }
  split. { split; [|split; vm_compute; reflexivity]. right. left. vm_compute. reflexivity. }
  split; [right; now left|]. split; [split; vm_compute; reflexivity|]. repeat split.
Qed.
Print Assumptions C89_types_refuted.

(** If nothing fails, the source storage has everything and trees are not deeper than the fuel of the model, every
    conversion goes on until it has an answer. *)
Theorem C89_succeeds H H2 utf8 ord (native : bool) source U gc fuel n s infos p :
  (forall t, String.length (H t) = 20) -> hex_digests H2 utf8 -> (forall l, Permutation (ord l) l) ->
  closed U -> (forall v, U v -> named v) -> (forall v, U v -> expressible H2 utf8 v) -> (forall v, U v -> depth v <= fuel) ->
  (if native then collision_free H2 (comp_texts H2 U source) else collision_free H (git_texts H U source)) ->
  (native = true -> forall v w, U v -> U w -> comp_data H2 v = comp_data H2 w -> is_dir v = is_dir w) ->
  (forall v, U v -> In (is_dir v, if native then comp_data H2 v else git_data H v) source) ->
  reachable H H2 utf8 ord native source false gc fuel n s ->
  asked_for (if native then compatible_info H2 else native_info H) U s ->
  In (infos, p) (st_threads s) ->
  (exists rs, p = Ret (Value rs) /\ length rs = length infos) \/ exists p' s', access H H2 native source false p s p' s'.
Proof.
  intros HL HX OP UC UN UE DD NC UD SS R Q I.
  assert (SD : True -> forall u, U u -> depth u <= fuel) by auto.
  assert (S1 : True -> false = false) by auto. destruct native.
  - assert (SS' : True -> forall u, U u -> exists k, In (k, comp_data H2 u) source) by eauto.
    pose proof (to_native_system H H2 utf8 ord source false U False True gc fuel n HL UC UN S1 SD s HX UE (UD eq_refl) NC (False_ind _) SS' R Q infos p I) as O.
    destruct (access_progress H H2 true source false U (comp_hash H2) (td H) (git_objects H) False True _ _ s Logic.I O) as [[a ->]|P]; [|right; exact P].
    left. cbn in O. destruct a as [rs| | |]; try (now destruct O). exists rs. split; [reflexivity|]. apply Forall2_nth in O as [L _]. now symmetry.
  - assert (SS' : True -> forall u, U u -> In (is_dir u, git_data H u) source) by auto.
    assert (SZ : True -> forall u, U u -> is_dir u = true -> (strlen (comp_data H2 u) < 2 ^ 31)%N).
    { intros _ u Uu D. apply UE in Uu. destruct u; try discriminate. now apply expressible_dir in Uu. }
    pose proof (to_compatible_system H H2 utf8 ord source false U False True gc fuel n HL UC UN S1 SD s OP NC (False_ind _) SS' SZ R Q infos p I) as O.
    destruct (access_progress H H2 false source false U (git_hash H) (fun u => comp_digest H2 (comp_data H2 u)) (comp_objects H2) False True _ _ s Logic.I O) as [[a ->]|P]; [|right; exact P].
    left. cbn in O. destruct a as [rs| | |]; try (now destruct O). exists rs. split; [reflexivity|]. apply Forall2_nth in O as [L _]. now symmetry.
Qed.
Print Assumptions C89_succeeds.

(** ** C90: what an object was converted to is in the target storage, completely. *)
Theorem C90_partial H H2 utf8 ord (native : bool) source faulty U fuel n s infos rs k i r u :
  (forall t, String.length (H t) = 20) -> hex_digests H2 utf8 -> (forall l, Permutation (ord l) l) ->
  closed U -> (forall v, U v -> named v) -> (forall v, U v -> expressible H2 utf8 v) ->
  (if native then collision_free H2 (comp_texts H2 U source) else collision_free H (git_texts H U source)) ->
  (native = true -> forall v w, U v -> U w -> comp_data H2 v = comp_data H2 w -> is_dir v = is_dir w) ->
  reachable H H2 utf8 ord native source faulty false fuel n s ->
  asked_for (if native then compatible_info H2 else native_info H) U s ->
  answered s infos rs k i r -> U u -> (if native then compatible_info H2 else native_info H) i u ->
  forall v, In v (parts u) ->
    exists g, In g (st_objs s) /\ In (is_dir v, if native then git_data H v else comp_data H2 v) g.
Proof.
  intros HL HX OP UC UN UE NC UD R Q (I & Ii & Ir) Uu Nu v Iv.
  pose proof (kept _ _ _ _ _ _ _ _ _ _ R) as [K _].
  assert (G : In (is_dir v, if native then git_data H v else comp_data H2 v) (st_ever s)).
  { destruct native.
    - pose proof (to_native_system H H2 utf8 ord source faulty U False False false fuel n HL UC UN (False_ind _) (False_ind _) s HX UE (UD eq_refl) NC (False_ind _)
        (False_ind _) R Q infos _ I) as A. cbn in A. apply Forall2_nth in A as [L A].
      destruct (A k i r Ii Ir u Uu Nu) as (_ & C & _). apply C. unfold git_objects. apply in_map_iff. eauto.
    - pose proof (to_compatible_system H H2 utf8 ord source faulty U False False false fuel n HL UC UN (False_ind _) (False_ind _) s OP NC (False_ind _)
        (False_ind _) (False_ind _) R Q infos _ I) as A. cbn in A. apply Forall2_nth in A as [L A].
      destruct (A k i r Ii Ir u Uu Nu) as (_ & C & _). apply C. unfold comp_objects. apply in_map_iff. eauto. }
  apply K, in_concat in G as (g & Ig & Iv'). eauto.
Qed.
Print Assumptions C90_partial.

(** With garbage collection it is false: reading a mapping keeps it alive, but not what it refers to. After two
    collections with one conversion in between, the next conversion answers with an object that is not there. The
    collections happen while no conversion is under way. *)
Definition one_file (u : fnode) : Prop := u = FFile false "data".
Theorem C90_refuted : exists s infos rs k i r u,
  closed one_file /\ (forall v, one_file v -> named v) /\ (forall v, one_file v -> expressible toy2 any v) /\
  collision_free toy1 (git_texts toy1 one_file [(false, "data")]) /\
  reachable toy1 toy2 any (fun l => l) false [(false, "data")] false true 5 1 s /\ asked_for (native_info toy1) one_file s /\
  answered s infos rs k i r /\ one_file u /\ native_info toy1 i u /\ fst r = comp_digest toy2 (comp_data toy2 u) /\
  (forall infos' p, In (infos', p) (st_threads s) -> exists rs', p = Ret (Value rs')) /\
  forall g, In g (st_objs s) -> g = [].
Proof.
  set (d := nat_digest toy1 false "data"). set (c := comp_digest toy2 "data").
  destruct (play toy1 toy2 any false [(false, "data")] 5 [Ask [(d, File)]; Collect; Ask [(d, File)]; Collect; Ask [(d, File)]] (initial 1)) as [s|] eqn:P; [|exfalso; vm_compute in P; discriminate].
  exists s, [(d, File)], [(c, File)], 0, (d, File), (c, File), (FFile false "data").
  split. { intros es x v E. discriminate. }
  split. { intros v ->. exact Logic.I. }
  split. { intros v ->. vm_compute; reflexivity. }
  split. { apply (distinct_free _ [object_text false "data"]); [vm_compute; reflexivity|].
    intros x [(u & -> & ->)|(b & y & [E|[]] & ->)]; [now left|]. injection E as <- <-. now left. }
  split. { eapply play_reachable; [|exact P|apply r_initial]. reflexivity. }
  vm_compute in P. injection P as <-.
  split. { intros infos p [E|[E|[E|[]]]]; injection E as <- <-; repeat constructor; exists (FFile false "data"); (split; [reflexivity|split; vm_compute; reflexivity]). }
  split. { split; [|split; vm_compute; reflexivity]. right. right. left. vm_compute. reflexivity. }
  split; [reflexivity|]. split; [split; vm_compute; reflexivity|]. split; [reflexivity|]. split.
  - intros infos' p [E|[E|[E|[]]]]; injection E as <- <-; eexists; reflexivity.
  - intros g [<-|[<-|[]]]; reflexivity.
Qed.
Print Assumptions C90_refuted.

(** Whatever happens, everything answered with has been stored at some time. *)
Theorem C90_stored_partial H H2 utf8 ord source faulty U gc fuel n s infos rs k i r u :
  (forall t, String.length (H t) = 20) -> (forall l, Permutation (ord l) l) ->
  closed U -> (forall v, U v -> named v) -> collision_free H (git_texts H U source) ->
  reachable H H2 utf8 ord false source faulty gc fuel n s -> asked_for (native_info H) U s ->
  answered s infos rs k i r -> U u -> native_info H i u ->
  forall v, In v (parts u) -> In (is_dir v, comp_data H2 v) (st_ever s).
Proof.
  intros HL OP UC UN NC R Q (I & Ii & Ir) Uu Nu v Iv.
  pose proof (to_compatible_system H H2 utf8 ord source faulty U False False gc fuel n HL UC UN (False_ind _) (False_ind _) s OP NC (False_ind _)
    (False_ind _) (False_ind _) R Q infos _ I) as A. cbn in A. apply Forall2_nth in A as [L A].
  destruct (A k i r Ii Ir u Uu Nu) as (_ & C & _). apply C. unfold comp_objects. apply in_map_iff. eauto.
Qed.
Print Assumptions C90_stored_partial.

(** ** C91: conversions have no undefined behaviour. *)

(** From native to compatible: whatever is requested and whatever the storages answer. *)
Theorem C91_to_compatible H H2 utf8 ord source faulty gc fuel n s infos :
  reachable H H2 utf8 ord false source faulty gc fuel n s -> ~ In (infos, Ret Crash) (st_threads s).
Proof. intros R I. apply (system_safe H H2 utf8 ord source faulty gc fuel n s R) in I. now apply I. Qed.
Print Assumptions C91_to_compatible.

(** From compatible to native: if nothing fails and only directories that can be expressed are requested. *)
Theorem C91_to_native_partial H H2 utf8 ord source U gc fuel n s infos :
  (forall t, String.length (H t) = 20) -> hex_digests H2 utf8 ->
  closed U -> (forall v, U v -> named v) -> (forall v, U v -> expressible H2 utf8 v) -> (forall v, U v -> depth v <= fuel) ->
  collision_free H2 (comp_texts H2 U source) ->
  (forall v w, U v -> U w -> comp_data H2 v = comp_data H2 w -> is_dir v = is_dir w) ->
  (forall v, U v -> exists b, In (b, comp_data H2 v) source) ->
  reachable H H2 utf8 ord true source false gc fuel n s -> asked_for (compatible_info H2) U s ->
  ~ In (infos, Ret Crash) (st_threads s).
Proof.
  intros HL HX UC UN UE DD NC UD SS R Q I.
  pose proof (to_native_system H H2 utf8 ord source false U False True gc fuel n HL UC UN (fun _ => eq_refl) (fun _ => DD) s HX UE UD NC (False_ind _)
    (fun _ => SS) R Q infos _ I) as O. cbn in O. now apply O.
Qed.
Print Assumptions C91_to_native_partial.

(** A blob that is no [Directory] message, requested as a tree: the program uses a value that is not there. So it does
    if storing the converted tree fails. *)
Theorem C91_to_native_refuted :
  (exists s infos, reachable toy1 toy2 any (fun l => l) true [(true, "x")] false false 5 1 s /\ In (infos, Ret Crash) (st_threads s)) /\
  (exists s infos, reachable toy1 toy2 any (fun l => l) true [(true, "")] true false 5 1 s /\
     Forall (fun i => compatible_info toy2 i (FDir [])) infos /\ In (infos, Ret Crash) (st_threads s)).
Proof.
  split.
  - destruct (play toy1 toy2 any true [(true, "x")] 5 [Ask [(comp_digest toy2 "x", Tree)]] (initial 1)) as [s|] eqn:P; [|exfalso; vm_compute in P; discriminate].
    exists s, [(comp_digest toy2 "x", Tree)]. split; [eapply play_reachable; [|exact P|apply r_initial]; intros X; vm_compute in X; discriminate|].
    vm_compute in P. injection P as <-. left. vm_compute. reflexivity.
  - set (i := (comp_digest toy2 "", Tree) : info).
    exists (mkState (repeat [] 2) (repeat [] 2) [([i], Ret Crash)] []), [i].
    split; [|split; [repeat constructor; vm_compute; reflexivity|now left]].
    assert (R0 : reachable toy1 toy2 any (fun l => l) true [(true, "")] true false 5 1 (initial 1)) by apply r_initial.
    assert (R1 : reachable toy1 toy2 any (fun l => l) true [(true, "")] true false 5 1
      (mkState (repeat [] 2) (repeat [] 2) ([] ++ [([i], Rehash toy1 toy2 any (fun l => l) true 5 [i])]) [])).
    { eapply r_step; [exact R0|]. apply (s_start _ _ _ _ _ _ _ _ _ (initial 1)). }
    assert (T : forall p p' s', reachable toy1 toy2 any (fun l => l) true [(true, "")] true false 5 1 (mkState (repeat [] 2) (repeat [] 2) ([] ++ [([i], p)]) []) ->
      access toy1 toy2 true [(true, "")] true p (mkState (repeat [] 2) (repeat [] 2) ([] ++ [([i], p)]) []) p' s' ->
      reachable toy1 toy2 any (fun l => l) true [(true, "")] true false 5 1 (mkState (st_maps s') (st_objs s') ([] ++ [([i], p')]) (st_ever s'))).
    { intros p p' s' R A. eapply thread_step; [exact R|exact A]. }
    cbn [Rehash i fst d_hash comp_digest] in R1.
    eapply T in R1; [|apply a_lookup_none; reflexivity]. cbn [st_maps st_objs st_ever IsTreeObject to_git_tree bind] in R1.
    eapply T in R1; [|apply (a_read _ _ _ _ _ _ _ _ _ ""); split; [exists true; now left|reflexivity]]. cbn [st_maps st_objs st_ever or_fail] in R1.
    change (ParseDirectory any "") with (Some (mkDirectory [] [] [])) in R1. cbn [dm_dirs dm_links dm_files tree_dirs tree_links tree_files bind] in R1.
    eapply T in R1; [|apply a_store_fails; reflexivity]. cbn [st_maps st_objs st_ever bind] in R1. exact R1.
Qed.
Print Assumptions C91_to_native_refuted.

(** ** Nonvacuity: a directory with files, a link and a directory; its conversion in both directions. *)
Example C89_nonvacuous : exists s rs r,
  reachable toy1 toy2 any (fun l => l) false root_source false false 5 1 s /\ asked_for (native_info toy1) in_root s /\
  answered s [(nat_digest toy1 true (git_data toy1 root), Tree)] rs 0 (nat_digest toy1 true (git_data toy1 root), Tree) r /\
  closed in_root /\ (forall v, in_root v -> named v) /\ (forall v, in_root v -> expressible toy2 any v) /\ (forall v, in_root v -> depth v <= 5) /\
  collision_free toy1 (git_texts toy1 in_root root_source) /\ (forall v, in_root v -> In (is_dir v, git_data toy1 v) root_source) /\
  d_size (fst r) = 158%N.
Proof.
  destruct (play toy1 toy2 any false root_source 5 [Ask [(nat_digest toy1 true (git_data toy1 root), Tree)]] (initial 1)) as [s|] eqn:P; [|exfalso; vm_compute in P; discriminate].
  exists s, [(comp_digest toy2 (comp_data toy2 root), Tree)], (comp_digest toy2 (comp_data toy2 root), Tree).
  split; [eapply play_reachable; [|exact P|apply r_initial]; intros X; vm_compute in X; discriminate|]. vm_compute in P. injection P as <-.
  split. { intros infos p [E|[]]. injection E as <- <-. repeat constructor. exists root. split; [now left|split; vm_compute; reflexivity]. }
  split. { split; [left; vm_compute; reflexivity|split; vm_compute; reflexivity]. }
  split; [exact root_closed|]. split; [exact root_named|]. split; [exact root_expressible|].
  split. { intros v [<-|[<-|[<-|[<-|[<-|[]]]]]]; vm_compute; lia. }
  split; [exact root_free|]. split; [|vm_compute; reflexivity].
  intros v I. unfold root_source. apply in_map_iff. eauto.
Qed.

Example C90_nonvacuous : exists s rs r,
  reachable toy1 toy2 any (fun l => l) true comp_source false false 5 1 s /\ asked_for (compatible_info toy2) in_root s /\
  answered s [(comp_digest toy2 (comp_data toy2 root), Tree)] rs 0 (comp_digest toy2 (comp_data toy2 root), Tree) r /\
  closed in_root /\ (forall v, in_root v -> named v) /\ (forall v, in_root v -> expressible toy2 any v) /\
  collision_free toy2 (comp_texts toy2 in_root comp_source) /\ (forall v, in_root v -> exists k, In (k, comp_data toy2 v) comp_source) /\
  (forall v w, in_root v -> in_root w -> comp_data toy2 v = comp_data toy2 w -> is_dir v = is_dir w) /\
  length (concat (st_objs s)) = 5.
Proof.
  destruct (play toy1 toy2 any true comp_source 5 [Ask [(comp_digest toy2 (comp_data toy2 root), Tree)]] (initial 1)) as [s|] eqn:P; [|exfalso; vm_compute in P; discriminate].
  exists s, [(nat_digest toy1 true (git_data toy1 root), Tree)], (nat_digest toy1 true (git_data toy1 root), Tree).
  split; [eapply play_reachable; [|exact P|apply r_initial]; intros X; vm_compute in X; discriminate|]. vm_compute in P. injection P as <-.
  split. { intros infos p [E|[]]. injection E as <- <-. repeat constructor. exists root. split; [now left|split; vm_compute; reflexivity]. }
  split. { split; [left; vm_compute; reflexivity|split; vm_compute; reflexivity]. }
  split; [exact root_closed|]. split; [exact root_named|]. split; [exact root_expressible|].
  split; [exact comp_free|]. split. { intros v I. exists (is_dir v). unfold comp_source. apply in_map_iff. eauto. }
  split; [exact comp_distinct|reflexivity].
Qed.

Example C91_nonvacuous : exists s infos p, reachable toy1 toy2 any (fun l => l) false [] true false 5 1 s /\ In (infos, p) (st_threads s) /\ p <> Ret Crash.
Proof.
  exists (mkState (repeat [] 2) (repeat [] 2) [([(mkDigest "x" true 0, Tree)], Rehash toy1 toy2 any (fun l => l) false 5 [(mkDigest "x" true 0, Tree)])] []), [(mkDigest "x" true 0, Tree)].
  eexists. split; [eapply r_step; [apply r_initial|apply (s_start _ _ _ _ _ _ _ _ _ (initial 1))]|]. split; [now left|]. discriminate.
Qed.
