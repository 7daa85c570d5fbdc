(** What a build should compute, without any schedule. *)
From Coq Require Import String List Bool Arith ZArith.
From Verif Require Import Common.Strs Describe.Model Executor.Local Dag.Traverse Executor.Process Executor.Build.
Import ListNotations.

(** The graph of the traversal is that of the actions. *)
Definition linked (g : graph) (acts : nat -> act) : Prop := forall c,
  deps g c = map snd (n_inputs (acts c)) /\ outs g c = map snd (n_files (acts c) ++ n_dirs (acts c)).

(** Tree actions have one output directory and nothing else. *)
Definition tree_shape (n : act) : Prop :=
  match n_kind n with Command => True | _ => n_files n = [] /\ exists o, n_dirs n = [o] end.

(** The root of the inputs: if the only input is a tree at "." or "", that tree, otherwise the tree of all inputs. *)
Definition only_a_tree (ins : list (string * object_info)) (d : digest) : Prop :=
  exists p i, ins = [(p, i)] /\ (p = "." \/ p = "")%string /\ i_type i = Tree /\ d = i_digest i.
Definition input_root (A : api) (ins : list (string * object_info)) (root : digest) : Prop :=
  only_a_tree ins root \/ (forall d, ~ only_a_tree ins d) /\ upload_tree A ins = Some root.

Section Values.
Variable X : context.
Variable A : api.
Variable g : graph.
Variable acts : nat -> act.
Variable source : nat -> option object_info.

(** The info an artifact gets: that of the source, or what processing its action with the values of the
    inputs writes for it. *)
Inductive value : nat -> object_info -> Prop :=
  | v_source : forall a i, builder g a = None -> source a = Some i -> value a i
  | v_built : forall a i c ins ws, builder g a = Some c ->
      Forall2 (fun (x : string * nat) (y : string * object_info) => fst x = fst y /\ value (snd x) (snd y))
        (n_inputs (acts c)) ins ->
      Process X A (acts c) ins = (true, ws) -> In (a, i) ws -> value a i.

(** The command of action [c], run on the values of its inputs, exits with a code other than zero. *)
Definition command_fails (c : nat) : Prop := exists ins root y,
  Forall2 (fun (x : string * nat) (y : string * object_info) => fst x = fst y /\ value (snd x) (snd y))
    (n_inputs (acts c)) ins /\
  n_kind (acts c) = Command /\ input_root A ins root /\
  let props := MergeProperties (x_props X) (n_props (acts c)) in
  execute A (GetAlternativeEndpoint (x_dispatch X) props)
    (order_of (acts c) props (if n_no_cache (acts c) then DoNotCacheOutput else CacheOutput) root) = Some y /\
  y_exit y <> 0%Z.

(** The artifact depends on the outputs of a failing command. *)
Inductive tainted : nat -> Prop :=
  | t_fails : forall a c, builder g a = Some c -> command_fails c -> tainted a
  | t_input : forall a c p d, builder g a = Some c -> In (p, d) (n_inputs (acts c)) -> tainted d -> tainted a.

(** The infos at the end of a log. *)
Definition infos_after (l : list event) (m : infos) : Prop :=
  exists pending, replay X A acts source l = Fine (mkBuild m pending).
End Values.

(** ** One action *)

(** The properties a platform must have (a map): those of the action win. *)
Definition merged (X : context) (n : act) (props : list (string * string)) : Prop :=
  sorted_keys props /\ forall k, alookup k props = match alookup k (n_props n) with Some v => Some v | None => alookup k (x_props X) end.

(** The endpoint for an action: the first one whose conditions all hold, or else the regular one. *)
Definition holds (props : list (string * string)) (conditions : list (string * string)) : Prop :=
  forall k v, In (k, v) conditions -> alookup k props = Some v.
Definition endpoint_for (dispatch : list (list (string * string) * nat)) (props : list (string * string)) (e : option nat) : Prop :=
  match e with
  | Some x => exists before conditions later, dispatch = before ++ (conditions, x) :: later /\ holds props conditions /\
                forall c y, In (c, y) before -> ~ holds props c
  | None => forall c y, In (c, y) dispatch -> ~ holds props c
  end.

(** The answer [y] to the action [n] on inputs [ins], sent with root [root] to endpoint [e], is acceptable,
    with artifacts [m]: exit code zero or failing allowed; in compatible mode no upwards symlinks; all outputs
    there, with the right type. *)
Record acceptable (X : context) (A : api) (n : act) (ins : list (string * object_info)) (e : option nat)
    (root : digest) (y : reply) (m : list (string * object_info)) : Prop := {
  ac_root : input_root A ins root;
  ac_sync : forall x, e = Some x -> sync A x root = true;
  ac_answer : exists o, execute A e o = Some y /\ o_root o = root /\ o_command o = n_command n /\ o_cwd o = n_cwd n /\
      o_files o = map (fun x : string * nat => rebase (n_cwd n) (fst x)) (n_files n) /\
      o_dirs o = map (fun x : string * nat => rebase (n_cwd n) (fst x)) (n_dirs n) /\
      o_env o = n_env n /\ merged X n (o_props o) /\ endpoint_for (x_dispatch X) (o_props o) e /\
      o_timeout o = n_timeout n /\ o_flag o = (if n_no_cache n then DoNotCacheOutput else CacheOutput);
  ac_exit : y_exit y = 0%Z \/ n_may_fail n = true;
  ac_upwards : x_type X = PlainSHA256 -> y_upwards y = Some false;
  ac_artifacts : y_artifacts y = Some m /\ m <> [];
  ac_files : forall p a, In (p, a) (n_files n) -> exists i, alookup (rebase (n_cwd n) p) m = Some i /\ i_type i <> Tree;
  ac_dirs : forall p a, In (p, a) (n_dirs n) -> exists i, alookup (rebase (n_cwd n) p) m = Some i /\
              (i_type i = Tree \/ i_type i = Symlink)
}.

(** Did an input come from a failed action? *)
Definition input_failed (ins : list (string * object_info)) : Prop := exists p i, In (p, i) ins /\ i_failed i = true.

(** What is written for the outputs: digest and type as answered; marked as failed if the answer says so, an
    input is failed, or the exit code is not zero. *)
Definition output_info (n : act) (ins : list (string * object_info)) (y : reply) (m : list (string * object_info))
    (a : nat) (i : object_info) : Prop :=
  exists p j, In (p, a) (n_files n ++ n_dirs n) /\ alookup (rebase (n_cwd n) p) m = Some j /\
    i_digest i = i_digest j /\ i_type i = i_type j /\
    (i_failed i = true <-> i_failed j = true \/ input_failed ins \/ y_exit y <> 0%Z).
