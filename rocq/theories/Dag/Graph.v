(** Construction of the action graph: model of DependencyGraph
    (src/buildtool/execution_engine/dag/dag.cpp, dag.hpp).

    Identifiers and paths are only compared for equality and are numbers here.
    The identifier of an artifact is a hash of its description
    (common/artifact_description.cpp); hash collisions are left out, and
    identifiers are the descriptions themselves.  Pointers to nodes are their
    positions in [artifact_nodes_] and [action_nodes_]. *)

From Coq Require Import List Arith Bool ZArith Lia.
From Verif Require Import Async.Lists.
Import ListNotations.

(** ArtifactDescription::CreateAction, CreateTree, CreateTreeOverlay; all
    others (local, known) do not name an action (artifact_description.cpp 51-96). *)
Inductive aid :=
  | AOut (act path : nat)
  | ATree (act : nat)
  | AOverlay (act : nat)
  | ALeaf (src : nat).

Definition aid_dec : forall x y : aid, {x = y} + {x <> y}.
Proof. decide equality; apply Nat.eq_dec. Defined.

(** Action::IsTreeAction, IsTreeOverlayAction; otherwise a command, empty or
    not (common/action.hpp) *)
Inductive kind := KTree | KOverlay | KCommand (empty : bool).

(** ActionDescription (common/action_description.hpp 37-57); the inputs are an
    unordered map from paths, here a list in the order of iteration *)
Record desc := mkD {
  d_id : nat;
  d_kind : kind;
  d_files : list nat;
  d_dirs : list nat;
  d_inputs : list (nat * aid)
}.

(** ArtifactNode: identifier, [children_] (builders), [parents_] (consumers)
    (dag.hpp 43-119, 408-455) *)
Record anode := mkA { an_id : aid; an_children : list nat; an_parents : list nat }.

(** ActionNode: identifier, [output_files_], [output_dirs_], [dependencies_],
    [parents_] (outputs), [children_] (inputs), [unavailable_deps_]
    (dag.hpp 253-405, 216) *)
Record cnode := mkC {
  cn_id : nat;
  cn_files : list (nat * nat);
  cn_dirs : list (nat * nat);
  cn_deps : list (nat * nat);
  cn_parents : list nat;
  cn_children : list nat;
  cn_unav : Z
}.

(** DependencyGraph, dag.hpp 495-507 *)
Record gstate := mkGS {
  arts : list anode;
  acts : list cnode;
  art_ids : list (aid * nat);
  act_ids : list (nat * nat)
}.

Definition empty_graph : gstate := mkGS [] [] [] [].

Section Assoc.
Context {A B : Type} (dec : forall x y : A, {x = y} + {x <> y}).
Fixpoint assoc (l : list (A * B)) (k : A) : option B :=
  match l with
  | [] => None
  | (k', v) :: l' => if dec k k' then Some v else assoc l' k
  end.
End Assoc.

(** AddArtifact(Artifact), dag.cpp 190-214 *)
Definition add_artifact (s : gstate) (id : aid) : gstate * nat :=
  match assoc aid_dec (art_ids s) id with
  | Some n => (s, n)
  | None =>
      let n := length (arts s) in
      (mkGS (arts s ++ [mkA id [] []]) (acts s) (art_ids s ++ [(id, n)]) (act_ids s), n)
  end.

(** AddAction(Action), dag.cpp 164-188 *)
Definition add_action_node (s : gstate) (id : nat) : gstate * nat :=
  match assoc Nat.eq_dec (act_ids s) id with
  | Some n => (s, n)
  | None =>
      let n := length (acts s) in
      (mkGS (arts s) (acts s ++ [mkC id [] [] [] [] [] (-1)]) (art_ids s) (act_ids s ++ [(id, n)]), n)
  end.

(** The loops of [node_creator] and of CreateInputArtifactNodes, dag.cpp 48-57
    and 69-80 *)
Fixpoint create_nodes (s : gstate) (l : list (nat * aid)) : gstate * list (nat * nat) :=
  match l with
  | [] => (s, [])
  | (path, id) :: l' =>
      let '(s1, n) := add_artifact s id in
      let '(s2, ns) := create_nodes s1 l' in
      (s2, (path, n) :: ns)
  end.

(** CreateOutputArtifactNodes, dag.cpp 21-66; the path of the output of tree
    actions is empty, here 0 *)
Definition create_outputs (s : gstate) (d : desc) : gstate * list (nat * nat) * list (nat * nat) :=
  match d_kind d with
  | KOverlay => let '(s1, n) := add_artifact s (AOverlay (d_id d)) in (s1, [], [(0, n)])
  | KTree => let '(s1, n) := add_artifact s (ATree (d_id d)) in (s1, [], [(0, n)])
  | KCommand _ =>
      let '(s1, files) := create_nodes s (map (fun p => (p, AOut (d_id d) p)) (d_files d)) in
      let '(s2, dirs) := create_nodes s1 (map (fun p => (p, AOut (d_id d) p)) (d_dirs d)) in
      (s2, files, dirs)
  end.

(** CreateActionNode, dag.cpp 82-90 *)
Definition create_action (s : gstate) (d : desc) : gstate * option nat :=
  match d_kind d with
  | KCommand true => (s, None)
  | _ => let '(s1, n) := add_action_node s (d_id d) in (s1, Some n)
  end.

Definition mod_art (s : gstate) (a : nat) (f : anode -> anode) : gstate :=
  match nth_error (arts s) a with
  | Some n => mkGS (upd (arts s) a (f n)) (acts s) (art_ids s) (act_ids s)
  | None => s
  end.
Definition mod_act (s : gstate) (c : nat) (f : cnode -> cnode) : gstate :=
  match nth_error (acts s) c with
  | Some n => mkGS (arts s) (upd (acts s) c (f n)) (art_ids s) (act_ids s)
  | None => s
  end.

(** [AddChild] and [AddParent] of an artifact node (dag.hpp 92-110) *)
Definition a_add_child c (n : anode) := mkA (an_id n) (an_children n ++ [c]) (an_parents n).
Definition a_add_parent c (n : anode) := mkA (an_id n) (an_children n) (an_parents n ++ [c]).
(** AddOutputFile, AddOutputDir, AddDependency, NotifyDoneLinking (dag.hpp
    275-313, 371-373) *)
Definition c_add_file p a (n : cnode) :=
  mkC (cn_id n) (cn_files n ++ [(p, a)]) (cn_dirs n) (cn_deps n) (cn_parents n ++ [a]) (cn_children n) (cn_unav n).
Definition c_add_dir p a (n : cnode) :=
  mkC (cn_id n) (cn_files n) (cn_dirs n ++ [(p, a)]) (cn_deps n) (cn_parents n ++ [a]) (cn_children n) (cn_unav n).
Definition c_add_dep p a (n : cnode) :=
  mkC (cn_id n) (cn_files n) (cn_dirs n) (cn_deps n ++ [(p, a)]) (cn_parents n) (cn_children n ++ [a]) (cn_unav n).
Definition c_done (n : cnode) :=
  mkC (cn_id n) (cn_files n) (cn_dirs n) (cn_deps n) (cn_parents n) (cn_children n)
      (Z.of_nat (length (cn_children n))).

(** AddBuilderActionNode (dag.hpp 426-435) *)
Definition add_builder (s : gstate) (a c : nat) : option gstate :=
  match nth_error (arts s) a with
  | Some n => match an_children n with
              | [] => Some (mod_art s a (a_add_child c))
              | _ :: _ => None
              end
  | None => None
  end.

(** LinkNodePointers, dag.cpp 92-120: the loops over outputs and inputs *)
Fixpoint link_outs (file : bool) (s : gstate) (c : nat) (l : list (nat * nat)) : gstate * bool :=
  match l with
  | [] => (s, true)
  | (p, a) :: l' =>
      match add_builder s a c with
      | None => (s, false)
      | Some s1 => link_outs file (mod_act s1 c (if file then c_add_file p a else c_add_dir p a)) c l'
      end
  end.

Fixpoint link_ins (s : gstate) (c : nat) (l : list (nat * nat)) : gstate :=
  match l with
  | [] => s
  | (p, a) :: l' => link_ins (mod_act (mod_art s a (a_add_parent c)) c (c_add_dep p a)) c l'
  end.

Definition link (s : gstate) (files dirs : list (nat * nat)) (c : nat) (ins : list (nat * nat))
    : gstate * bool :=
  let '(s1, ok1) := link_outs true s c files in
  if negb ok1 then (s1, false) else
  let '(s2, ok2) := link_outs false s1 c dirs in
  if negb ok2 then (s2, false) else
  (mod_act (link_ins s2 c ins) c c_done, true).

(** AddAction(ActionDescription), dag.cpp 146-162 *)
Definition add_action (s : gstate) (d : desc) : gstate * bool :=
  let '(s1, files, dirs) := create_outputs s d in
  let '(s2, c) := create_action s1 d in
  let '(s3, ins) := create_nodes s2 (d_inputs d) in
  match c with
  | None => (s3, false)
  | Some c =>
      match files, dirs with
      | [], [] => (s3, false)
      | _, _ => link s3 files dirs c ins
      end
  end.

(** Add, dag.cpp 122-136: [all_of] stops at the first failure *)
Fixpoint add (s : gstate) (l : list desc) : gstate * bool :=
  match l with
  | [] => (s, true)
  | d :: l' => let '(s1, ok) := add_action s d in if ok then add s1 l' else (s1, false)
  end.

(** The additions of the interface: [Add], and AddArtifact(ArtifactDescription),
    dag.cpp 138-144 *)
Inductive addition := AddActions (l : list desc) | AddArtifact (id : aid).

Definition apply (s : gstate) (o : addition) : gstate :=
  match o with
  | AddActions l => fst (add s l)
  | AddArtifact id => fst (add_artifact s id)
  end.

(** ArtifactNodeWithId, ActionNodeWithId (dag.cpp 228-256) *)
Definition artifact_node (s : gstate) (id : aid) : option anode :=
  match assoc aid_dec (art_ids s) id with Some n => nth_error (arts s) n | None => None end.
Definition action_node (s : gstate) (id : nat) : option cnode :=
  match assoc Nat.eq_dec (act_ids s) id with Some n => nth_error (acts s) n | None => None end.
