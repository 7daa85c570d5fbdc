(** Vocabulary for stored target results. *)
From Coq Require Import String Ascii List Bool NArith.
From Verif Require Import Common.Strs Expr.Json Expr.JsonSpec Expr.HashSpec Describe.Model Describe.Spec Result.Model.
Import ListNotations.
Local Open Scope string_scope.
Local Open Scope list_scope.

(** The parts a value is directly composed of. *)
Definition members (v : value) : list value :=
  match v with
  | VResult s p r _ => [s; p; r]
  | VNodeValue w => [w]
  | VNodeAbstract _ sf tf => [sf; tf]
  | VList l => l
  | VMap m => map snd m
  | _ => []
  end.

(** [part u v]: [u] is [v] or occurs within [v], at any depth. *)
Inductive part : value -> value -> Prop :=
| part_self v : part v v
| part_in u w v : In w (members v) -> part u w -> part u v.

Section S.
Variable ndump : num -> string.
Variable H : string -> string.

(** Values that may be stored: no unresolved target names, all results inside cacheable, artifacts with
    valid digests. *)
Definition storable (t : hash_type) (v : value) : Prop :=
  forall u, part u v ->
    match u with
    | VName _ => False
    | VResult _ _ _ c => c = true
    | VArt a => artifact_ok t a
    | _ => True
    end.

(** The artifact that takes the place of an artifact: with replacements, every artifact not yet known
    is replaced by the known one; origin repositories are not kept. *)
Definition known_form (r : replacements) (a : artifact) : artifact :=
  match r with
  | [] => forget_repo a
  | _ =>
      if is_known a then forget_repo a
      else match find_replacement ndump H r a with
           | Some i => AKnown (i_digest i) (i_type i) None
           | None => a
           end
  end.

(** The value with all its artifacts, at any depth, replaced that way. *)
Fixpoint rebuild (r : replacements) (v : value) : value :=
  match v with
  | VArt a => VArt (known_form r a)
  | VResult s p f c => VResult (rebuild r s) (rebuild r p) (rebuild r f) c
  | VNodeValue w => VNodeValue (rebuild r w)
  | VNodeAbstract t sf tf => VNodeAbstract t (rebuild r sf) (rebuild r tf)
  | VList l => VList (map (rebuild r) l)
  | VMap m => VMap (map (fun p => match p with (k, x) => (k, rebuild r x) end) m)
  | _ => v
  end.

(** Replacements are valid, and every artifact of the value that is not known has one. *)
Definition replacements_ok (t : hash_type) (r : replacements) : Prop :=
  Forall (fun p => info_ok t (snd p)) r.
Definition covered (r : replacements) (v : value) : Prop :=
  r = [] \/ forall a, part (VArt a) v -> is_known a = true \/ find_replacement ndump H r a <> None.

(** No two different values within [v] have the same hash; origin repositories of known artifacts do
    not count as a difference, as they are not kept. *)
Definition distinct_hashes (v : value) : Prop :=
  forall u w, part u v -> part w v -> vid ndump H u = vid ndump H w -> rebuild [] u = rebuild [] w.

(** Maps from paths to artifacts. *)
Definition artifact_map (v : value) : Prop :=
  exists m, v = VMap m /\ forall k x, In (k, x) m -> exists a, x = VArt a.
End S.

(** ** When hashes are distinct *)
Section S2.
Variable ndump : num -> string.
Variable H : string -> string.

Definition finite_numbers (v : value) : Prop := forall n, part (VNum n) v -> num_ok n.

(** Results and nodes within the value are determined by their JSON form. *)
Definition is_result (v : value) : bool := match v with VResult _ _ _ _ => true | _ => false end.
Definition is_target_node (v : value) : bool := match v with VNodeValue _ | VNodeAbstract _ _ _ => true | _ => false end.
Definition no_imitation (v : value) : Prop := forall u w, part u v -> part w v ->
  (is_result u = true /\ is_result w = true) \/ (is_target_node u = true /\ is_target_node w = true) ->
  value_ToJson ndump H u = value_ToJson ndump H w -> rebuild ndump H [] u = rebuild ndump H [] w.

(** The hash function does not collide on the texts hashed. *)
Definition no_collision (v : value) : Prop := forall u w, part u v -> part w v ->
  ~ hash_collision ndump H (embed ndump H u) (embed ndump H w).
End S2.

(** ** What a target cache entry keeps *)
Section S3.
Variable ndump : num -> string.
Variable H : string -> string.

(** Every artifact of the value is known, or has a replacement. *)
Definition all_known (r : replacements) (v : value) : Prop :=
  forall a, part (VArt a) v -> is_known (known_form ndump H r a) = true.

(** [a] occurs in one of the three parts of a result. *)
Definition artifact_of (stage provides runfiles : value) (a : artifact) : Prop :=
  part (VArt a) stage \/ part (VArt a) provides \/ part (VArt a) runfiles.
End S3.
