(** Model of the functions on stages in src/buildtool/build_engine/target_map/utils.cpp and of
    [ExprToTree] in target_map.cpp. A stage is a map from paths to artifacts, given by its sorted
    entries; an artifact is given by its JSON description (as in Expr/Model.v). *)
From Coq Require Import String Ascii List Bool Arith.
From Verif Require Import Common.Strs Path.Model Expr.Json Expr.Model Hex.Model Describe.Model.
Import ListNotations.
Local Open Scope string_scope.
Local Open Scope list_scope.
Local Open Scope nat_scope.

Definition items := list (string * expr).

Fixpoint list_str_eqb (a b : list string) : bool :=
  match a, b with
  | [], [] => true
  | x :: r, y :: s => String.eqb x y && list_str_eqb r s
  | _, _ => false
  end.

(** [std::filesystem::path::operator==] (library): element-wise. *)
Definition path_eqb (p q : string) : bool := list_str_eqb (elements p) (elements q).

(** The loop [for (; not p.empty(); p = p.parent_path())], utils.cpp:152, 178 and 184: the paths met.
    The fuel bounds the number of rounds; for a relative path every parent is shorter, for absolute
    paths (which never get here in [tree_conflict]) the loop would not end. *)
Fixpoint ancestors (fuel : nat) (p : string) : list string :=
  match fuel with
  | O => []
  | S f => match p with "" => [] | _ => p :: ancestors f (parent_path p) end
  end.
Definition self_and_parents (p : string) : list string := ancestors (S (String.length p)) p.

(** [artifacts_tree], utils.cpp:110-122: [inl] is the conflicting location. *)
Section Equality.
Variable eqb : expr -> expr -> bool.   (* ExpressionPtr::operator== *)
Fixpoint artifacts_tree_go (m acc : items) : string + items :=
  match m with
  | [] => inr acc
  | (key, artifact) :: r =>
      let location := ToNormalPath key in
      match alookup location acc with
      | Some old => if eqb old artifact then artifacts_tree_go r (aemplace location artifact acc) else inl location
      | None => artifacts_tree_go r (aemplace location artifact acc)
      end
  end.
Definition artifacts_tree (m : items) : string + items := artifacts_tree_go m [].
End Equality.

(** [tree_conflict], utils.cpp:124-160. For the empty path [*p.begin()] reads the end iterator;
    libstdc++ then yields the path itself. *)
Fixpoint tree_conflict_go (size : nat) (m : items) (blocked : list string) : option string :=
  match m with
  | [] => None
  | (path, _) :: r =>
      if String.eqb path "." && Nat.ltb 1 size then Some "."
      else if is_absolute path then Some path
      else if (match elements path with e :: _ => String.eqb e ".." | [] => false end) then Some path
      else if existsb (path_eqb path) blocked then Some path
      else
        match find (fun p => existsb (path_eqb p) (path :: blocked)) (self_and_parents (parent_path path)) with
        | Some p => Some p
        | None => tree_conflict_go size r (path :: blocked)
        end
  end.
Definition tree_conflict (m : items) : option string := tree_conflict_go (length m) m [].

(** All values of the map are artifacts, the loops in target_map.cpp:342-350, 584-592, 1007-1015. *)
Definition is_artifact (e : expr) : bool := match e with EArt _ => true | _ => false end.
Definition all_artifacts (m : items) : bool := forallb (fun p => is_artifact (snd p)) m.
Definition artifact_of (e : expr) : json := match e with EArt j => j | _ => JNull end.

(** Contents of a tree: unordered_map filled by [emplace] with normalised paths (first entry stays);
    as sorted entries. target_map.cpp:338-360, built_in_rules.cpp:514-521, 558-566. *)
Definition tree_content (m : items) : list (string * json) :=
  fold_left (fun acc p => aemplace (ToNormalPath (fst p)) (artifact_of (snd p)) acc) m [].

(** [ExprToTree], target_map.cpp:331-361: [None] is the thrown error, otherwise the content of the
    tree. *)
Definition ExprToTree (val : expr) : option (list (string * json)) :=
  match val with
  | EMap m =>
      if all_artifacts m then
        match tree_conflict m with
        | Some _ => None
        | None => Some (tree_content m)
        end
      else None
  | _ => None
  end.

Section Ids.
Variable ndump : num -> string.
Variable H : string -> string.   (* SHA256 as bytes *)

(** [Tree::ComputeId], tree.hpp:80-96. *)
Definition tree_id (content : list (string * json)) : string :=
  ToHexString (H ("TREE:" ++ dump ndump (JObj content))).

(** [TreeOverlay::ComputeId], tree_overlay.hpp:88-111; keys of the JSON object in order. *)
Definition overlay_id (trees : list json) (disjoint : bool) : string :=
  ToHexString (H ("TREE_OVERLAY:" ++ dump ndump (JObj [("disjoint", JBool disjoint); ("trees", JArr trees)]))).

(** [add_dir_for], utils.cpp:162-201: the stage and, if one was added, the (empty) tree. *)
Definition add_dir_blocked (cwd : string) (p : string * expr) : bool :=
  let path := fst p in
  String.eqb path "" || String.eqb path "."
  || existsb (fun c => path_eqb c path) (self_and_parents cwd)
  || existsb (fun q => path_eqb q cwd) (self_and_parents path).
Definition add_dir_for (cwd : string) (stage : items) : items * list (list (string * json)) :=
  if String.eqb cwd "" || String.eqb cwd "." then (stage, [])
  else if existsb (add_dir_blocked cwd) stage then (stage, [])
  else (ainsert cwd (EArt (art_ToJson (ATree (tree_id [])))) stage, [[]]).

(** [hash_vector], utils.cpp:239-246. The hashers are fed piece by piece; what they hash is the
    concatenation. *)
Definition hash_vector (v : list string) : string := H (String.concat "" (map H v)).

(** Action descriptions as constructed by [createAction]; inputs as sorted entries. *)
Record raction := mkRAction {
  ra_id : string;
  ra_outs : list string;
  ra_out_dirs : list string;
  ra_command : list string;
  ra_cwd : string;
  ra_env : list (string * string);
  ra_may_fail : option string;
  ra_no_cache : bool;
  ra_timeout : num;
  ra_properties : list (string * string);
  ra_inputs : list (string * json)
}.

Definition string_of (e : expr) : string := match e with EStr s => s | _ => "" end.
Definition string_entries (m : items) : list (string * string) := map (fun p => (fst p, string_of (snd p))) m.

(** Text of [fmt::format("{:+24a}", timeout_scale)]: left abstract. *)
Variable ftext : num -> string.

(** What is hashed for the identifier, utils.cpp:265-277. *)
Definition action_preimage (outs out_dirs command : list string) (cwd : string) (env : items)
    (may_fail : option string) (no_cache : bool) (timeout : num) (props inputs : items) : string :=
  ("ACTION:" ++ hash_vector outs ++ hash_vector out_dirs ++ hash_vector command ++ hash_vector [cwd]
   ++ ToHash ndump H (EMap env)
   ++ hash_vector (match may_fail with Some m => [m] | None => [] end)
   ++ (if no_cache then "N" else "Y")
   ++ ftext timeout
   ++ ToHash ndump H (EMap props)
   ++ ToHash ndump H (EMap inputs))%string.

(** [createAction], utils.cpp:249-306. *)
Definition createAction (outs out_dirs command : list string) (cwd : string) (env : items)
    (may_fail : option string) (no_cache : bool) (timeout : num) (props inputs : items) : raction :=
  mkRAction (ToHexString (H (action_preimage outs out_dirs command cwd env may_fail no_cache timeout props inputs)))
    outs out_dirs command cwd (string_entries env) may_fail no_cache timeout (string_entries props)
    (map (fun p => (fst p, artifact_of (snd p))) inputs).
End Ids.
