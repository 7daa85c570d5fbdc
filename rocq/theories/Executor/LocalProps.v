(** Properties of the identity of actions and of their cached execution. *)
From Coq Require Import String Ascii List Bool NArith ZArith Permutation Lia.
From Verif Require Import Common.Strs Path.Model Describe.Model Executor.Wire Executor.WireProofs Executor.Local Executor.LocalSpec
  Executor.LocalProofs.
Import ListNotations.
Local Open Scope string_scope.
Local Open Scope list_scope.

(** * C55: the id of an action determines the action *)

(** Equal ids mean equal inputs, command, working directory, environment, execution properties, timeout,
    caching flag and, up to order, outputs; unless the serialised messages of these two actions collide. *)
Theorem C55_id_determines_action : forall hash t root command cwd files dirs env props timeout legacy x
    root' command' cwd' files' dirs' env' props' timeout' legacy' y d d',
  let a := CreateAction t root command cwd files dirs env props timeout legacy in
  let b := CreateAction t root' command' cwd' files' dirs' env' props' timeout' legacy' in
  ok_action t a -> ok_action t b ->
  CreateActionDigest hash t a x = Some d -> CreateActionDigest hash t b y = Some d' -> d_hash d = d_hash d' ->
  (root = root' /\ command = command' /\ cwd = cwd' /\ Permutation files files' /\ Permutation dirs dirs' /\
   env = env' /\ props = props' /\ timeout = timeout' /\ x = y) \/
  ids_collide hash t a x b y.
Proof.
  intros hash t root command cwd files dirs env props timeout legacy x
    root' command' cwd' files' dirs' env' props' timeout' legacy' y d d' a b Oa Ob A B E.
  destruct (same_id hash t a b x y d d' Oa Ob A B E) as [[S ->]|C]; [left|right; exact C].
  destruct S as (S1 & S2 & S3 & S4 & S5 & S6 & S7 & S8 & S9). cbn in *.
  repeat split; auto; apply sort_eq; assumption.
Qed.

(** The order in which outputs are listed does not matter. *)
Theorem C55_order_of_outputs : forall hash t root command cwd files dirs env props timeout legacy files' dirs' x,
  Permutation files files' -> Permutation dirs dirs' ->
  CreateActionDigest hash t (CreateAction t root command cwd files dirs env props timeout legacy) x =
  CreateActionDigest hash t (CreateAction t root command cwd files' dirs' env props timeout legacy) x.
Proof.
  intros hash t root command cwd files dirs env props timeout legacy files' dirs' x F D.
  unfold CreateAction, new_action. now rewrite (sort_unique _ _ F), (sort_unique _ _ D).
Qed.

(** * C56: the cached execution of actions *)

(** A response without running the command: the caching flag allows it; the command of an earlier run of
    the same action exited with 0, its result is the one stored last under this id and it is still in the
    cache; each declared output is named, with the right kind, and whatever is named was seen after that run. *)
Theorem C56_hits_are_real : forall hash t es f a w p ac,
  (forall e f' a' w', In e es -> e = Exec f' a' w' -> ok_action t a') -> ok_action t a ->
  Execute hash t (after hash t es) f a w = (Some p, ac, false) ->
  CacheEnabled f = true /\ p_cached p = true /\ ac = after hash t es /\
  (match a_mode a with
   | V2_1 => forall q, In q (a_paths a) -> exists i, names hash p q i
   | _ => (forall q, In q (a_files a) -> exists i, names hash p q i /\ is_file i) /\
          (forall q, In q (a_dirs a) -> exists i, names hash p q i /\ is_dir i)
   end) /\
  exists pre a0 w0 post, es = pre ++ Exec CacheOutput a0 w0 :: post /\
    executed (Execute hash t (after hash t pre) CacheOutput a0 w0) = true /\ w_exit w0 = Some 0%Z /\
    (forall q i, names hash p q i -> seen hash w0 q i) /\
    (same_action a a0 \/ ids_collide hash t a false a0 false) /\
    (forall p1 p2, post = p1 ++ p2 ->
       alookup (p_id p) (after hash t (pre ++ Exec CacheOutput a0 w0 :: p1)) = Some (p_result p)).
Proof.
  intros hash t es f a w p ac Hes Ha E.
  apply execute_hit in E. destruct E as (CE & PC & -> & id & D & P & L & X & C).
  split; [exact CE|]. split; [exact PC|]. split; [reflexivity|].
  destruct (entry_origin _ _ _ _ _ L) as (pre & a0 & w0 & post & id0 & -> & D0 & K & R & EX & KEEP).
  destruct (ran_sound hash t _ _ _ _ R) as [W S].
  assert (forall q i, names hash p q i -> seen hash w0 q i) as N.
  { intros q i H. unfold names in H. rewrite artifacts_lookup in H. apply S, alookup_In_pair, H. }
  assert (forall q i, In (q, i) (populate_entries hash (p_result p)) -> names hash p q i) as N'.
  { intros q i H. destruct (alookup_In_key q (populate_entries hash (p_result p))) as (j & J).
    - apply in_map_iff. exists (q, i). auto.
    - unfold names. rewrite artifacts_lookup, J. f_equal.
      exact (seen_fun hash w0 q j i (S _ _ (alookup_In_pair _ _ _ J)) (S _ _ H)). }
  split.
  - unfold contains in C. destruct (a_mode a).
    + apply contains_outputs_spec in C. destruct C as [C1 C2]. split; intros q Q.
      * destruct (has_file_entry hash q _ (C1 q Q)) as (i & I' & T). eauto.
      * destruct (has_dir_entry hash q _ (C2 q Q)) as (i & I' & T). eauto.
    + rewrite contains_paths_spec in C. intros q Q. destruct (has_path_entry hash q _ (C q Q)) as (i & I'). eauto.
    + apply contains_outputs_spec in C. destruct C as [C1 C2]. split; intros q Q.
      * destruct (has_file_entry hash q _ (C1 q Q)) as (i & I' & T). eauto.
      * destruct (has_dir_entry hash q _ (C2 q Q)) as (i & I' & T). eauto.
  - exists pre, a0, w0, post. split; [reflexivity|]. split; [exact EX|]. split; [rewrite W; congruence|].
    split; [exact N|]. split.
    + assert (ok_action t a0) as Ha0 by (eapply Hes; [apply in_app_iff; right; left; reflexivity|reflexivity]).
      destruct (same_id hash t a a0 false false id id0 Ha Ha0 D D0 (eq_sym K)) as [[SA _]|CO]; [now left|right; exact CO].
    + rewrite P. exact KEEP.
Qed.

(** A response after running the command: the exit code is that of the command, whatever is named was seen
    after the run, and the response claims to be cached only if pretending was asked for. *)
Theorem C56_runs_are_real : forall hash t ac f a w p ac',
  Execute hash t ac f a w = (Some p, ac', true) ->
  ExecutionEnabled f = true /\ w_exit w = Some (r_exit (p_result p)) /\
  (forall q i, names hash p q i -> seen hash w q i) /\
  (p_cached p = true <-> f = PretendCached).
Proof.
  intros hash t ac f a w p ac' E. apply execute_ran in E. destruct E as (EE & PC & (ok & R) & _).
  destruct (ran_sound hash t _ _ _ _ R) as [W S]. repeat split; auto; try apply PC.
  intros q i H. unfold names in H. rewrite artifacts_lookup in H. apply S, alookup_In_pair, H.
Qed.

(** The caching flags. Without caching nothing is looked up or stored; from-cache-only never runs
    anything; pretending reports the id of the cached action; the cache changes only by a caching run. *)
Theorem C56_flags : forall hash t ac f a w o ac' x,
  Execute hash t ac f a w = (o, ac', x) ->
  (f <> CacheOutput -> ac' = ac) /\
  (f = FromCacheOnly -> x = false) /\
  (f = DoNotCacheOutput \/ f = PretendCached -> o <> None -> x = true) /\
  (forall p id, f = PretendCached -> o = Some p -> CreateActionDigest hash t a false = Some id -> p_id p = d_hash id).
Proof.
  intros hash t ac f a w o ac' x E. split; [|split; [|split]].
  - intros N. destruct (execute_cache _ _ _ _ _ _ _ _ _ E) as [H|(id & r & H & _)]; [exact H|contradiction].
  - intros ->. unfold Execute in E. cbn [CacheEnabled ExecutionEnabled negb] in E.
    destruct (CreateActionDigest hash t a false); [|congruence].
    match type of E with (match ?h with _ => _ end) = _ => destruct h end; congruence.
  - intros F O. destruct x; [reflexivity|]. destruct o as [p|]; [|contradiction].
    apply execute_hit in E. destruct E as (CE & _). destruct F as [->| ->]; discriminate.
  - intros p id -> -> D. destruct x.
    + apply execute_ran in E. destruct E as (_ & _ & _ & id' & D' & P). cbn in D'. congruence.
    + apply execute_hit in E. destruct E as (CE & _). discriminate.
Qed.

(** ** Successful runs are not repeated *)

Lemma hit_when hash t ac f a w id r :
  CreateActionDigest hash t a false = Some id -> alookup (d_hash id) ac = Some r -> r_exit r = 0%Z -> contains a r = true ->
  CacheEnabled f = true -> Execute hash t ac f a w = (Some (mkResponse (d_hash id) r true), ac, false).
Proof.
  intros D L X C CE. unfold Execute. rewrite CE. cbn [negb]. rewrite D, L, X. fold (contains a r). rewrite C. reflexivity.
Qed.

Lemma entry_stays hash t a id r : CreateActionDigest hash t a false = Some id -> r_exit r = 0%Z -> contains a r = true ->
  forall post ac, (forall e, In e post -> undisturbed hash t a e) -> alookup (d_hash id) ac = Some r ->
  alookup (d_hash id) (fold_left (step hash t) post ac) = Some r.
Proof.
  intros D X C. induction post as [|e post IH]; intros ac U L; cbn [fold_left]; [exact L|].
  apply IH; [intros e' H; apply U; now right|]. specialize (U e (or_introl eq_refl) id D).
  destruct e as [f b w|k]; cbn [step].
  - destruct (Execute hash t ac f b w) as [[o ac'] x] eqn:E. cbn [fst snd].
    destruct (execute_cache _ _ _ _ _ _ _ _ _ E) as [->|(id' & r' & -> & -> & D' & _ & _ & ->)]; [exact L|].
    destruct U as [->|U].
    + rewrite (hit_when _ _ _ CacheOutput a w id r D L X C eq_refl) in E. discriminate.
    + rewrite ainsert_lookup. destruct (String.eqb_spec (d_hash id) (d_hash id')) as [Q|]; [|exact L].
      exfalso. exact (U id' D' (eq_sym Q)).
  - rewrite alookup_filter. destruct (String.eqb_spec (d_hash id) k); [congruence|exact L].
Qed.

(** The full statement holds when the outputs are as in [outputs_there]; proved here when declared
    directories are not symlinks and, for actions that declare output paths, nothing is. *)
Theorem C56_served_later_partial : forall hash t a w,
  plain_outputs t a w -> w_exit w = Some 0%Z -> w_store w = true -> served_later hash t a w.
Proof.
  intros hash t a w PO W S pre post p ac f w' E U CE now.
  pose proof E as E0.
  apply execute_ran in E. destruct E as (_ & _ & _ & id & D & P). cbn in D.
  assert (exists r, p_result p = r /\ r_exit r = 0%Z /\ contains a r = true /\ ac = ainsert (d_hash id) r (after hash t pre)) as
    (r & R & X & C & A).
  { unfold Execute in E0. cbn [CacheEnabled ExecutionEnabled negb] in E0. rewrite D in E0.
    match type of E0 with (match ?h with _ => _ end) = _ => destruct h; [discriminate|] end.
    unfold Run in E0. rewrite W in E0. destruct (a_command a); [discriminate|].
    destruct (outputs_complete hash t a w (mkResult 0 [] [] [] [] [] (w_stdout w) (w_stderr w)) PO) as (r & O & C).
    rewrite O, S in E0. cbn in E0. injection E0 as <- <-. exists r. repeat split; [|exact C].
    rewrite (outputs_exit t _ _ _ _ _ O); reflexivity. }
  assert (alookup (d_hash id) now = Some r) as L.
  { unfold now. rewrite after_app. cbn [fold_left step]. rewrite E0. cbn [fst snd].
    apply (entry_stays hash t a id r D X C post); [exact U|]. rewrite A, ainsert_lookup, String.eqb_refl. reflexivity. }
  eexists. split; [exact (hit_when hash t now f a w' id r D L X C CE)|].
  intros q i. unfold names. cbn [p_result]. rewrite R. reflexivity.
Qed.

(** *** The full statement is false *)

Definition ex_root : digest := mkDigest "00" true 0%N.
Definition ex_hash (s : string) : string := s.

(** The command leaves a symlink to "x" where the directory "d" is declared. *)
Definition ex_dir_action : local_action :=
  CreateAction GitSHA1 ex_root ["ln"; "-s"; "x"; "d"] "" [] ["d"] [] [] 1%Z false.
Definition ex_link_world (p : string) : world :=
  mkWorld (Some 0%Z) (fun q => if String.eqb q p then Some (FLink (Some "x") true) else None) None None true.

(** The same for an action that declares output paths. *)
Definition ex_path_action : local_action :=
  new_action_paths ex_root ["ln"; "-s"; "x"; "d"] "" ["d"] [] [] 1%Z.

Definition runs_again (a : local_action) (w : world) : bool :=
  match Execute ex_hash GitSHA1 [] CacheOutput a w with
  | (Some p, ac, true) =>
      match Execute ex_hash GitSHA1 ac CacheOutput a w with (_, _, again) => again end
  | _ => false
  end.

Lemma runs_again_refutes a w : runs_again a w = true -> ~ served_later ex_hash GitSHA1 a w.
Proof.
  unfold runs_again. intros H F.
  destruct (Execute ex_hash GitSHA1 [] CacheOutput a w) as [[[p|] ac] []] eqn:E; try discriminate.
  destruct (F [] [] p ac CacheOutput w E (fun e X => match X with end) eq_refl) as (p' & E' & _).
  assert (after ex_hash GitSHA1 ([] ++ [Exec CacheOutput a w]) = ac) as A by (cbn [app]; unfold after; cbn [fold_left step]; now rewrite E).
  change (Exec CacheOutput a w :: []) with [Exec CacheOutput a w] in E'.
  rewrite A in E'. rewrite E' in H. discriminate.
Qed.

(** A declared directory that is a symlink after the command: collecting accepts it and stores the result,
    but the check on the stored result does not, so the action runs again each time. *)
Theorem C56_served_later_refuted : exists hash t root command cwd files dirs env props timeout legacy w,
  let a := CreateAction t root command cwd files dirs env props timeout legacy in
  ok_action t a /\ outputs_there t a w /\ w_exit w = Some 0%Z /\ w_store w = true /\ ~ served_later hash t a w.
Proof.
  exists ex_hash, GitSHA1, ex_root, ["ln"; "-s"; "x"; "d"], "", [], ["d"], [], [], 1%Z, false, (ex_link_world "d").
  cbv zeta. split; [split; [discriminate|cbn; lia]|]. split; [|split; [reflexivity|split; [reflexivity|]]].
  - split; cbn; [tauto|]. intros p [<-|[]]. right. exists "x". split; [reflexivity|intros _; reflexivity].
  - apply (runs_again_refutes ex_dir_action). vm_compute. reflexivity.
Qed.

(** Any symlink in the outputs of an action that declares output paths has the same effect. *)
Theorem C56_served_later_paths_refuted : exists hash t root command cwd paths env props timeout w,
  let a := new_action_paths root command cwd paths env props timeout in
  ok_action t a /\ outputs_there t a w /\ w_exit w = Some 0%Z /\ w_store w = true /\ ~ served_later hash t a w.
Proof.
  exists ex_hash, GitSHA1, ex_root, ["ln"; "-s"; "x"; "d"], "", ["d"], [], [], 1%Z, (ex_link_world "d").
  cbv zeta. split; [split; [discriminate|cbn; lia]|]. split; [|split; [reflexivity|split; [reflexivity|]]].
  - cbn. intros p [<-|[]]. left. right. exists "x". split; [reflexivity|intros _; reflexivity].
  - apply (runs_again_refutes ex_path_action). vm_compute. reflexivity.
Qed.

(** ** Concrete cases *)

Definition ex_action : local_action :=
  CreateAction GitSHA1 ex_root ["cc"; "-o"; "o"] "w" ["o"; "log"] ["d"] [("PATH", "/bin")] [("arch", "x")] 1%Z false.
Definition ex_swapped : local_action :=
  CreateAction GitSHA1 ex_root ["cc"; "-o"; "o"] "w" ["log"; "o"] ["d"] [("PATH", "/bin")] [("arch", "x")] 1%Z false.
Definition ex_world : world :=
  mkWorld (Some 0%Z)
    (fun q => if String.eqb q "o" then Some (FFile true (Some (mkDigest "01" false 3%N)))
              else if String.eqb q "log" then Some (FLink (Some "o") true)
              else if String.eqb q "d" then Some (FDir (Some (mkDigest "02" true 9%N))) else None)
    None None true.

Example C55_nonvacuous :
  ok_action GitSHA1 ex_action /\ Permutation ["o"; "log"] ["log"; "o"] /\
  exists d, CreateActionDigest ex_hash GitSHA1 ex_action false = Some d /\
            CreateActionDigest ex_hash GitSHA1 ex_swapped false = Some d /\
            CreateActionDigest ex_hash GitSHA1 ex_action true <> Some d.
Proof.
  split; [split; [discriminate|cbn; lia]|]. split; [apply perm_swap|].
  eexists. split; [vm_compute; reflexivity|]. split; [vm_compute; reflexivity|]. vm_compute. discriminate.
Qed.

Example C56_nonvacuous :
  plain_outputs GitSHA1 ex_action ex_world /\ ok_action GitSHA1 ex_action /\
  exists p ac p', Execute ex_hash GitSHA1 [] CacheOutput ex_action ex_world = (Some p, ac, true) /\
    Execute ex_hash GitSHA1 ac FromCacheOnly ex_swapped (mkWorld None (fun _ => None) None None false) = (Some p', ac, false) /\
    names ex_hash p' "log" (mkInfo (mkDigest "o" false 1%N) Symlink false) /\
    names ex_hash p' "d" (mkInfo (mkDigest "02" true 9%N) Tree false).
Proof.
  split; [|split; [split; [discriminate|cbn; lia]|]].
  - split; cbn; intros p H; repeat (destruct H as [<-|H]; [|]); try destruct H.
    + right. exists "o". split; [reflexivity|intros _; reflexivity].
    + left. exists true, (mkDigest "01" false 3%N). reflexivity.
    + exists (mkDigest "02" true 9%N). reflexivity.
  - eexists _, _, _. split; [vm_compute; reflexivity|]. split; [vm_compute; reflexivity|]. split; vm_compute; reflexivity.
Qed.

Print Assumptions C55_id_determines_action.
Print Assumptions C55_order_of_outputs.
Print Assumptions C56_hits_are_real.
Print Assumptions C56_runs_are_real.
Print Assumptions C56_flags.
Print Assumptions C56_served_later_partial.
Print Assumptions C56_served_later_refuted.
Print Assumptions C56_served_later_paths_refuted.
