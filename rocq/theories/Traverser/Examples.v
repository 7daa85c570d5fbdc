(** A concrete case for C68 and C69: a generated file, compiled in a working directory. *)
From Coq Require Import String Ascii List Bool Arith NArith ZArith Lia Sorted.
From Verif Require Import Executor.Local Executor.Process.
From Verif Require Import Common.Strs LinkedMap.Model Expr.Json Expr.Model Describe.Model.
From Verif Require Import Analysis.Stage Analysis.Model Analysis.Spec Analysis.HonestSpec Analysis.Crash Analysis.Taint Analysis.Honest Analysis.Proofs Analysis.Examples Analysis.StageExamples Analysis.StageProps Analysis.BuildableProps.
From Verif Require Import Traverser.Model Traverser.Spec Traverser.Closure.
Import ListNotations.
Local Open Scope string_scope.
Local Open Scope list_scope.
Local Open Scope nat_scope.

Definition bin_key : key := (JStr "bin", on_x86).
Definition no_target : analysed := mkAnalysed (mkResult [] [] []) [] [] [] [] [] [] [] None ([], [], []).
Definition bin_target : analysed := match analyse stage_world 5 bin_key with ODone a => a | _ => no_target end.
Definition visited : list (key * analysed) := (bin_key, bin_target) :: trace (analyse stage_world 4) (program_of stage_world bin_key).
Definition bin_action : raction := hd (mkRAction "" [] [] [] "" [] None false one [] []) (an_actions bin_target).
Definition bin_out : json := art_ToJson (AAction (ra_id bin_action) "out").
Definition bin_tree : json := art_ToJson (ATree (t_id stage_world [])).

Lemma bin_done : analyse stage_world 5 bin_key = ODone bin_target.
Proof. vm_compute. reflexivity. Qed.
Lemma bin_analysed : analyses stage_world bin_key bin_target.
Proof. exact (analyse_sound _ _ _ _ bin_done). Qed.
Lemma bin_plain : plain_env (snd bin_key).
Proof. now apply plain_flat. Qed.
Lemma visited_keys : map (fun x => fst (fst x)) visited = [JStr "bin"; JStr "lib"] /\
  map (fun x => trace (analyse stage_world 4) (program_of stage_world (fst x))) (tl visited) = [[]] /\
  map (fun x => exec (analyse stage_world 4) (program_of stage_world (fst x))) (tl visited) = map (fun x => ODone (snd x)) (tl visited).
Proof. vm_compute. repeat split. Qed.

Lemma visited_targets : analysed_targets stage_world visited.
Proof.
  split.
  - intros k a [H|H]; [injection H as <- <-; split; [exact bin_analysed|exact bin_plain]|]. apply trace_sound in H. split.
    + exact (requested_analysed _ _ _ _ H).
    + exact (requests_clean stage_world (stage_world_honest _) stage_world_plain bin_key k a bin_plain H).
  - intros k a d v [H|H] D.
    + injection H as <- <-. right. apply (trace_all _ 4 _ bin_target); [exact bin_done|exact D].
    + destruct visited_keys as (_ & E1 & E2). exfalso. change (In (k, a) (tl visited)) in H.
      destruct (tl visited) as [|[k0 a0] [|]] eqn:E; [destruct H| |discriminate]. destruct H as [H|[]]. injection H as -> ->. cbn [map fst snd] in E1, E2.
      apply (f_equal (@hd _ [])) in E1. apply (f_equal (@hd _ OFuel)) in E2. cbn [hd] in E1, E2. apply (trace_all _ 4 _ _ E2) in D. rewrite E1 in D. destruct D.
Qed.

(** Everything recorded. *)
Lemma visited_recorded : ToResult stage_world (map snd visited) = mkGathered [bin_action] ["linux"] [[]] [] /\
  flat_map an_actions (map snd visited) = [bin_action] /\ flat_map an_trees (map snd visited) = [[]] /\ flat_map an_overlays (map snd visited) = [].
Proof. vm_compute. repeat split. Qed.
Lemma visited_ids : ids_determine stage_world visited.
Proof.
  destruct visited_recorded as (_ & A & T & O).
  assert (G : forall {B} (f : analysed -> list B) x, (exists k a, In (k, a) visited /\ In x (f a)) -> In x (flat_map f (map snd visited))).
  { intros B f x (k & a & H & J). apply in_flat_map. exists a. split; [|exact J]. apply in_map_iff. exists (k, a). auto. }
  assert (R : forall r, recorded visited r -> r = RAction bin_action \/ r = RTree []).
  { intros [x|c|o] H; apply G in H.
    - rewrite A in H. destruct H as [<-|[]]. now left.
    - rewrite T in H. destruct H as [<-|[]]. now right.
    - rewrite O in H. destruct H. }
  intros r r' H H' E. destruct (R r H) as [->| ->], (R r' H') as [->| ->]; auto; exfalso; vm_compute in E; discriminate.
Qed.
Lemma visited_setting : build_setting stage_world visited [bin_out].
Proof.
  constructor; [exact (stage_world_honest _)|exact stage_world_plain|exact stage_world_typed|exact visited_targets|exact visited_ids| |].
  - intros j H. destruct (stage_world_nothing _ H).
  - intros j [<-|[]]. exists bin_key, bin_target. split; [now left|]. left. vm_compute. now left.
Qed.

(** An endpoint that executes it, and what is known of the generated file. *)
Definition some_info (s : string) (t : object_type) : object_info := mkInfo (mkDigest s false 0%N) t false.
Definition one_api : api :=
  mkApi (fun l => Some (mkDigest (String.concat "," (map fst l)) false 0%N)) None (fun _ _ _ => None) (fun _ _ => true)
    (fun _ o => match o_command o with
       | ["cc"; "x86"] => Some (mkReply 0%Z (Some [("../out", some_info (o_cwd o ++ " of " ++ d_hash (o_root o)) File)]) (Some false))
       | _ => None
       end).
Definition one_context : context := mkContext PlainSHA256 [] [].
Definition one_src (j : json) : option object_info :=
  Some (some_info "linux" File).

Lemma recorded_tree : recorded visited (RTree []).
Proof. exists bin_key, bin_target. split; [now left|]. vm_compute. now left. Qed.
Lemma recorded_action : recorded visited (RAction bin_action).
Proof. exists bin_key, bin_target. split; [now left|]. vm_compute. now left. Qed.

Lemma tree_out : comes_out one_context one_api stage_world (fun _ => 0%Z) visited one_src bin_tree (mkInfo (mkDigest "" false 0%N) Tree false).
Proof.
  apply (co_made one_context one_api stage_world (fun _ => 0%Z) visited one_src (RTree []) 0 "" [] [(0, mkInfo (mkDigest "" false 0%N) Tree false)]).
  - exact recorded_tree. - reflexivity. - constructor. - reflexivity. - now left.
Qed.
Lemma bin_inputs : exists d, ra_inputs bin_action = [("lib.c", art_ToJson (AKnown d File None)); ("work", bin_tree)].
Proof. exists (mkDigest "linux" false 0%N). vm_compute. reflexivity. Qed.
Lemma bin_comes_out : comes_out one_context one_api stage_world (fun _ => 0%Z) visited one_src bin_out (some_info "work of lib.c,work" File).
Proof.
  apply (co_made one_context one_api stage_world (fun _ => 0%Z) visited one_src (RAction bin_action) 0 "out"
    [("lib.c", some_info "linux" File); ("work", mkInfo (mkDigest "" false 0%N) Tree false)] [(0, some_info "work of lib.c,work" File)]).
  - exact recorded_action.
  - vm_compute. reflexivity.
  - cbn [rinputs]. destruct bin_inputs as [d ->]. constructor; [|constructor; [|constructor]]; cbn [fst snd]; (split; [reflexivity|]).
    + apply co_source; [eexists; split; [reflexivity|exact I]|]. reflexivity.
    + exact tree_out.
  - vm_compute. reflexivity.
  - now left.
Qed.

(** Two targets, an action of one that uses the blob of the other and a tree of its own, all of them in the
    gathered result; the setting holds, and the action comes out as something. *)
Example C68_nonvacuous : ids_determine stage_world visited /\ length visited = 2 /\
  g_actions (ToResult stage_world (map snd visited)) = [bin_action] /\ g_blobs (ToResult stage_world (map snd visited)) = ["linux"] /\
  g_trees (ToResult stage_world (map snd visited)) = [[]].
Proof. split; [exact visited_ids|]. destruct visited_recorded as (-> & _). repeat split. Qed.
Example C69_nonvacuous : build_setting stage_world visited [bin_out] /\
  length (ra_inputs bin_action) = 2 /\
  comes_out one_context one_api stage_world (fun _ => 0%Z) visited one_src bin_out (some_info "work of lib.c,work" File) /\
  forall i, ~ comes_out one_context one_api stage_world (fun _ => 0%Z) visited (fun _ => None) bin_out i.
Proof.
  split; [exact visited_setting|]. split; [reflexivity|]. split; [exact bin_comes_out|]. intros i H.
  assert (Q : forall j i, comes_out one_context one_api stage_world (fun _ => 0%Z) visited (fun _ => None) j i -> source_like j -> False).
  { intros j i' C (a & E & S). destruct C as [j i' _ X|r n o ins ws i' _ _ _ _ _]; [discriminate|].
    destruct r, a; cbn [out_artifact art_ToJson] in E; try discriminate; destruct S. }
  remember bin_out as j eqn:E. destruct H as [j i _ X|r n o ins ws i R _ F _ _]; [discriminate|].
  unfold bin_out in E. destruct r as [x|c|q]; cbn [out_artifact art_ToJson] in E; try discriminate.
  assert (x = bin_action) as ->.
  { assert (RAction x = RAction bin_action) as X; [|now injection X]. apply (visited_ids _ _ R recorded_action). cbn [rid]. injection E. auto. }
  cbn [rinputs] in F. destruct bin_inputs as [d B]. rewrite B in F. inversion F as [|? ? ? ? [_ C]]; subst. cbn [snd] in C.
  apply (Q _ _ C). exists (AKnown d File None). split; [reflexivity|exact I].
Qed.
