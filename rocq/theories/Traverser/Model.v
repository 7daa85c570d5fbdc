(** From analysed targets to the action graph: ResultTargetMap::ToResult
    (src/buildtool/build_engine/target_map/result_map.hpp) and the part of GraphTraverser::BuildArtifacts
    (src/buildtool/graph_traverser/graph_traverser.cpp) that sets up the graph. *)
From Coq Require Import String Ascii List Bool Arith NArith ZArith.
From Verif Require Import Common.Strs Expr.Json Expr.Model Expr.Eval Describe.Model.
From Verif Require Import Dag.Graph Dag.GraphInv Analysis.Stage Analysis.Model.
From Verif Require Executor.Process.
Import ListNotations.
Local Open Scope string_scope.
Local Open Scope list_scope.
Local Open Scope nat_scope.

(** [std::sort] by identifier followed by [std::unique] on identifiers. Which of several elements with the
    same identifier is kept depends on the order of hash tables and of sorting; here the first one. *)
Definition by_id {A} (id : A -> string) (l : list A) : list A :=
  map snd (fold_left (fun m x => aemplace (id x) x m) l []).

(** [ResultType], result_map.hpp:64-70. *)
Record gathered := mkGathered {
  g_actions : list raction;
  g_blobs : list string;
  g_trees : list (list (string * json));
  g_overlays : list (list json * bool)
}.

Section Gather.
Variable W : world.
Definition t_id (c : list (string * json)) : string := tree_id (w_ndump W) (w_hash W) c.
Definition o_id (o : list json * bool) : string := overlay_id (w_ndump W) (w_hash W) (fst o) (snd o).

(** [ToResult], result_map.hpp:186-379, without origins, statistics and progress. The targets are given as
    a list in the order of the map. *)
Definition ToResult (ts : list analysed) : gathered :=
  mkGathered (by_id ra_id (flat_map an_actions ts)) (sorted_set (flat_map an_blobs ts))
             (by_id t_id (flat_map an_trees ts)) (by_id o_id (flat_map an_overlays ts)).
End Gather.

(** What becomes an action of the graph. *)
Inductive recipe := RAction (x : raction) | RTree (c : list (string * json)) | ROverlay (o : list json * bool).

Section Graph.
Variable W : world.
(** The graph of Dag/Graph.v has numbers for identifiers and paths. *)
Variable code : string -> nat.
Variable leaf : json -> nat.

Definition rid (r : recipe) : string :=
  match r with RAction x => ra_id x | RTree c => t_id W c | ROverlay o => o_id W o end.

(** [TreeOverlay::AsInputs], tree_overlay.hpp:113-120. *)
Fixpoint as_inputs (n : N) (l : list json) : list (string * json) :=
  match l with [] => [] | j :: r => (dec10 n, j) :: as_inputs (n + 1) r end.
Definition rinputs (r : recipe) : list (string * json) :=
  match r with RAction x => ra_inputs x | RTree c => c | ROverlay o => as_inputs 0 (fst o) end.

(** The node an artifact description stands for, artifact_description.cpp:51-96: outputs of actions, trees
    and overlays; all others are leaves. *)
Definition aid_of (j : json) : aid :=
  match art_FromJson (fun _ => 0%N) PlainSHA256 j with
  | Some (AAction id path) => AOut (code id) (code path)
  | Some (Describe.Model.ATree id) => Graph.ATree (code id)
  | Some (ATreeOverlay id) => AOverlay (code id)
  | _ => ALeaf (leaf j)
  end.

(** Action descriptions; [Tree::Action] (tree.hpp:49-52) and [TreeOverlay::Action] (tree_overlay.hpp:53-58)
    for trees and overlays. *)
Definition rkind (r : recipe) : kind :=
  match r with RAction x => KCommand (is_nil (ra_command x)) | RTree _ => KTree | ROverlay _ => KOverlay end.
Definition rfiles (r : recipe) : list string := match r with RAction x => ra_outs x | _ => [] end.
Definition rdirs (r : recipe) : list string := match r with RAction x => ra_out_dirs x | _ => [] end.
Definition desc_of (r : recipe) : desc :=
  mkD (code (rid r)) (rkind r) (map code (rfiles r)) (map code (rdirs r))
      (map (fun e => (code (fst e), aid_of (snd e))) (rinputs r)).

Definition command_recipes (g : gathered) : list recipe := map RAction (g_actions g).
Definition tree_recipes (g : gathered) : list recipe := map RTree (g_trees g) ++ map ROverlay (g_overlays g).
Definition recipes_of (g : gathered) : list recipe := command_recipes g ++ tree_recipes g.

(** [AddArtifactsToRetrieve] and the artifacts asked for in addition, graph_traverser.cpp:329-357, 494-505. *)
Definition add_artifacts (js : list json) : gstate :=
  fold_left (fun s j => fst (add_artifact s (aid_of j))) js empty_graph.

(** The construction of the graph in [BuildArtifacts], graph_traverser.cpp:494-529; [None] if an addition fails. *)
Definition BuildGraph (g : gathered) (js : list json) : option gstate :=
  let '(s1, ok1) := add (add_artifacts js) (map desc_of (command_recipes g)) in
  if ok1 then
    let '(s2, ok2) := add s1 (map desc_of (tree_recipes g)) in
    if ok2 then Some s2 else None
  else None.

(** [GetArtifactNodes], graph_traverser.cpp:404-424: the positions of the nodes of artifacts. *)
Definition node_of_artifact (s : gstate) (j : json) : nat := aidx s (aid_of j).

(** What the executor gets for an action node (dag.hpp:253-405): paths with the positions of the artifact nodes. *)
Variable scale : num -> Z.
Definition rnodes (s : gstate) (x : list (string * json)) : list (string * nat) :=
  map (fun e => (fst e, node_of_artifact s (snd e))) x.
Definition act_of (s : gstate) (r : recipe) : Process.act :=
  match r with
  | RAction x =>
      Process.mkAct Process.Command (rnodes s (ra_inputs x))
        (map (fun o => (o, aidx s (AOut (code (ra_id x)) (code o)))) (ra_outs x))
        (map (fun o => (o, aidx s (AOut (code (ra_id x)) (code o)))) (ra_out_dirs x))
        (ra_command x) (ra_cwd x) (ra_env x) (ra_properties x) (scale (ra_timeout x))
        (match ra_may_fail x with Some _ => true | None => false end) (ra_no_cache x)
  | RTree c =>
      Process.mkAct Process.TreeAction (rnodes s c) [] [("", aidx s (Graph.ATree (code (t_id W c))))] [] "" [] [] 0%Z false false
  | ROverlay o =>
      Process.mkAct (Process.Overlay (snd o)) (rnodes s (as_inputs 0 (fst o))) []
        [("", aidx s (AOverlay (code (o_id W o))))] [] "" [] [] 0%Z false false
  end.
Definition idle : Process.act := Process.mkAct Process.Command [] [] [] [] "" [] [] 0%Z false false.
Definition node_act (g : gathered) (s : gstate) (c : nat) : Process.act :=
  match nth_error (acts s) c with
  | Some n =>
      match find (fun r => Nat.eqb (code (rid r)) (cn_id n)) (recipes_of g) with
      | Some r => act_of s r
      | None => idle
      end
  | None => idle
  end.
End Graph.
