(** What building the results of analysed targets should give. *)
From Coq Require Import String Ascii List Bool Arith NArith ZArith.
From Verif Require Import Executor.Local Executor.Process.
From Verif Require Import Common.Strs LinkedMap.Model Expr.Json Expr.Model Describe.Model.
From Verif Require Import Analysis.Stage Analysis.Model Analysis.Spec Analysis.HonestSpec Traverser.Model.
Import ListNotations.
Local Open Scope string_scope.
Local Open Scope list_scope.
Local Open Scope nat_scope.

(** Configured targets with their results, among them all dependencies: what is in the result map at the
    end of an analysis. *)
Record analysed_targets (W : world) (ts : list (key * analysed)) : Prop := {
  at_analysed : forall k a, In (k, a) ts -> analyses W k a /\ plain_env (snd k);
  at_closed : forall k a d v, In (k, a) ts -> depends W k d v -> In (d, v) ts
}.

(** What those targets recorded. *)
Definition recorded (ts : list (key * analysed)) (r : recipe) : Prop :=
  exists k a, In (k, a) ts /\
    match r with
    | RAction x => In x (an_actions a)
    | RTree c => In c (an_trees a)
    | ROverlay o => In o (an_overlays a)
    end.
Definition recorded_blob (ts : list (key * analysed)) (s : string) : Prop :=
  exists k a, In (k, a) ts /\ In s (an_blobs a).
Definition all_recorded (ts : list (key * analysed)) : recipes :=
  mkRecipes (fun x => recorded ts (RAction x)) (recorded_blob ts) (fun c => recorded ts (RTree c))
            (fun o => recorded ts (ROverlay o)).

(** Identifiers stand for one thing each; without collisions of the hash function (see C63). *)
Definition ids_determine (W : world) (ts : list (key * analysed)) : Prop :=
  forall r r', recorded ts r -> recorded ts r' -> rid W r = rid W r' -> r = r'.

(** Source files, and objects that are known to be stored. *)
Definition source_like (j : json) : Prop :=
  exists a, j = art_ToJson a /\ match a with ALocal _ _ | AKnown _ _ _ => True | _ => False end.

(** What comes from outside of the analysis is of that kind, or made from recorded things. *)
Definition nothing_loose (W : world) (ts : list (key * analysed)) : Prop :=
  forall j, given W j -> buildable W source_like (all_recorded ts) j.

(** The outputs of a recipe, and the artifacts they are. *)
Definition routs (r : recipe) : list string :=
  match r with RAction x => ra_outs x ++ ra_out_dirs x | _ => [""] end.
Definition out_artifact (W : world) (r : recipe) (o : string) : json :=
  match r with
  | RAction x => art_ToJson (AAction (ra_id x) o)
  | RTree c => art_ToJson (ATree (t_id W c))
  | ROverlay o' => art_ToJson (ATreeOverlay (o_id W o'))
  end.

(** A recipe on its own: its outputs are numbered as they come. *)
Fixpoint number (n : nat) (l : list string) : list (string * nat) :=
  match l with [] => [] | o :: r => (o, n) :: number (S n) r end.
Definition standalone (scale : num -> Z) (r : recipe) : act :=
  match r with
  | RAction x =>
      mkAct Command [] (number 0 (ra_outs x)) (number (length (ra_outs x)) (ra_out_dirs x))
        (ra_command x) (ra_cwd x) (ra_env x) (ra_properties x) (scale (ra_timeout x))
        (match ra_may_fail x with Some _ => true | None => false end) (ra_no_cache x)
  | RTree _ => mkAct TreeAction [] [] [("", 0)] [] "" [] [] 0%Z false false
  | ROverlay o => mkAct (Overlay (snd o)) [] [] [("", 0)] [] "" [] [] 0%Z false false
  end.

(** What an artifact comes out as: sources as [src] has them; outputs as the recorded recipe, run on what its
    inputs come out as, gives them. There is no graph and no order here. *)
Inductive comes_out (X : context) (A : api) (W : world) (scale : num -> Z) (ts : list (key * analysed))
    (src : json -> option object_info) : json -> object_info -> Prop :=
| co_source j i : source_like j -> src j = Some i -> comes_out X A W scale ts src j i
| co_made r n o ins ws i : recorded ts r -> nth_error (routs r) n = Some o ->
    Forall2 (fun (x : string * json) (y : string * object_info) =>
               fst x = fst y /\ comes_out X A W scale ts src (snd x) (snd y)) (rinputs r) ins ->
    Process X A (standalone scale r) ins = (true, ws) -> In (n, i) ws ->
    comes_out X A W scale ts src (out_artifact W r o) i.

(** All that is assumed about what is to be built: targets analysed with evaluation that makes up nothing,
    and artifacts of their results asked for. *)
Record build_setting (W : world) (ts : list (key * analysed)) (js : list json) : Prop := {
  bs_honest : honest_evaluator W;
  bs_plain : plain_definitions W;
  bs_typed : typed_world W;
  bs_targets : analysed_targets W ts;
  bs_ids : ids_determine W ts;
  bs_given : nothing_loose W ts;
  bs_asked : forall j, In j js -> exists k a, In (k, a) ts /\ in_result (an_result a) j
}.
