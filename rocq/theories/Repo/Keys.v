(** * Repository keys

    Model of src/buildtool/common/repository_config.cpp 40-155.

    Simplifications: repository names, local names and base descriptions (JSON
    values) are natural numbers; a repository is its base description, if it is
    content-fixed, and its name mapping.  Storing the text of the graph never
    fails. *)

From Coq Require Import List Arith Bool Lia.
From Verif.Repo Require Import Minimizer Bisim.
Import ListNotations.

(** repository_config.hpp 175-182: [base_desc] and [info.name_mapping]. *)
Definition repo := (option nat * transitions)%type.
Definition config := list (nat * repo).

(** repository_config.cpp 71-87: the states given to the minimiser: the
    content-fixed repositories; [H] is the hash function applied to the text of
    the base description. *)
Definition automaton_of (H : nat -> nat) (K : config) : automaton :=
  flat_map (fun e => match e with
                     | (n, (Some base, m)) => [(n, m, H base)]
                     | (_, (None, _)) => []
                     end) K.

(** repository_config.cpp 60-96: [DeduplicateRepo]; [d] is the duplicates map
    the minimiser returned. *)
Definition dedup (d : list (nat * nat)) (r : nat) : nat := rep d r.

(** An object description of the graph: the base description and the
    bindings, from local names to ids.  (The base description has no entry
    "bindings", see 24-38, so this pair and the JSON object determine each
    other.)  Ids are numbers; the code has their decimal texts. *)
Definition desc := (nat * list (nat * nat))%type.
Definition graph := list (nat * desc).

Record gstate := mkG {
  g_counter : nat;
  g_ids : list (nat * nat);
  g_graph : graph
}.

(** [NoFuel] is not an outcome of the code; [Abort] is [std::nullopt]. *)
Inductive res (A : Type) := NoFuel | Abort | Done (s : gstate) (v : A).
Arguments NoFuel {A}.
Arguments Abort {A}.
Arguments Done {A}.

(** repository_config.cpp 140-147: the loop over the name mapping. *)
Fixpoint bind_all (go : gstate -> nat -> res nat) (s : gstate) (m : transitions)
  : res (list (nat * nat)) :=
  match m with
  | [] => Done s []
  | (local, global) :: rest =>
      match go s global with
      | NoFuel => NoFuel
      | Abort => Abort
      | Done s' i =>
          match bind_all go s' rest with
          | NoFuel => NoFuel
          | Abort => Abort
          | Done s'' bs => Done s'' ((local, i) :: bs)
          end
      end
  end.

(** repository_config.cpp 117-155: [AddToGraphAndGetId]; the fuel bounds the
    depth of the recursion.  Assigning to a key of the graph puts the new value
    in front, which is the one found. *)
Fixpoint add_to_graph (fuel : nat) (K : config) (d : list (nat * nat))
         (s : gstate) (r : nat) : res nat :=
  match fuel with
  | 0 => NoFuel
  | S f =>
      let x := dedup d r in
      match assoc x (g_ids s) with
      | Some i => Done s i
      | None =>
          match assoc x K with
          | Some (Some base, m) =>
              let i := g_counter s in
              let s1 := mkG (S i) (g_ids s ++ [(x, i)]) (g_graph s) in
              match bind_all (add_to_graph f K d) s1 m with
              | NoFuel => NoFuel
              | Abort => Abort
              | Done s2 bs =>
                  Done (mkG (g_counter s2) (g_ids s2) ((i, (base, bs)) :: g_graph s2)) i
              end
          | _ => Abort
          end
      end
  end.

(** repository_config.cpp 100-113: [BuildGraphForRepository]. *)
Definition build_graph (fuel : nat) (K : config) (d : list (nat * nat)) (r : nat)
  : res graph :=
  match add_to_graph fuel K d (mkG 0 [] []) r with
  | NoFuel => NoFuel
  | Abort => Abort
  | Done s _ => Done s (g_graph s)
  end.

(** repository_config.cpp 40-57: [RepositoryKey], without the cached value (see
    KeyCache.v).  [digest] is the hash of the text of a graph. *)
Definition repository_key {T} (digest : graph -> T) (K : config)
           (d : list (nat * nat)) (r : nat) : option T :=
  let x := dedup d r in
  match assoc x K with
  | None => None
  | Some _ =>
      match build_graph (S (length K)) K d x with
      | Done _ g => Some (digest g)
      | _ => None
      end
  end.

(** All keys a configuration may yield, over the orders of enumeration of the
    minimiser's tables. *)
Definition key_of {T} (H : nat -> nat) (digest : graph -> T) (K : config)
           (r : nat) (k : option T) : Prop :=
  exists d, minimized (automaton_of H K) (Some d) /\ k = repository_key digest K d r.
