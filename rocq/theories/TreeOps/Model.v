(** Model of src/buildtool/execution_engine/tree_operations/tree_operations_utils.cpp (native mode) and of
    [Compute] in src/buildtool/tree_structure/tree_structure_utils.cpp. *)
From Coq Require Import String Ascii List Bool NArith Arith.
From Verif Require Import Common.Strs Hex.Model GitTree.Model.
Import ListNotations.
Local Open Scope string_scope.
Local Open Scope list_scope.

(** [Artifact::ObjectInfo], artifact.hpp:42-56: hash in hexadecimal and type. Comparison of digests ignores
    the size (artifact_digest.hpp:52-54), which is not modelled; [failed] is false for all objects here. *)
Definition info : Type := (string * otype).
Definition info_eqb (a b : info) : bool := (String.eqb (fst a) (fst b) && otype_eqb (snd a) (snd b))%bool.

(** [TreeEntries], tree_operations_utils.hpp:41-46: a map by name (symlink targets are only set in
    compatible mode). The iteration order of the hash map has no influence on results; here names are
    sorted. *)
Definition TreeEntries : Type := list (string * info).

(** Tree objects available through the API, as their contents; an object is found by its hash. *)
Definition store : Type := list string.

Section H.
Variable H : string -> string.

Definition hex_tree_id (d : string) : string := ToHexString (tree_id H d).

(** [api.RetrieveToMemory], for trees. *)
Definition retrieve (st : store) (i : info) : option string :=
  find (fun d => String.eqb (hex_tree_id d) (fst i)) st.

(** [ArtifactDigestFactory::Create] succeeds for 40 hexadecimal digits (hash_info.cpp:74-103). *)
Definition digest_ok (hex : string) : bool := (Nat.eqb (String.length hex) 40 && IsHexString hex)%bool.

(** [ParseGitTree], tree_operations_utils.cpp:99-141. The type of all entries with the same hash is that of
    the first of them (line 137). *)
Definition add_group (acc : option TreeEntries) (g : string * list entry) : option TreeEntries :=
  match acc, snd g with
  | Some m, first :: _ =>
      if digest_ok (ToHexString (fst g)) then
        Some (fold_left (fun m e => aemplace (fst e) (ToHexString (fst g), snd first) m) (snd g) m)
      else None
  | _, _ => None
  end.
Definition ParseGitTree (data hex : string) : option TreeEntries :=
  match ReadTreeData H (fun _ => true) data hex with
  | Some g => fold_left add_group g (Some [])
  | None => None
  end.

(** [ReadTree], tree_operations_utils.cpp:143-165. *)
Definition ReadTreeInfo (st : store) (i : info) : option TreeEntries :=
  match retrieve st i with Some d => ParseGitTree d (fst i) | None => None end.

(** [SerializeGitTree], tree_operations_utils.cpp:212-242. *)
Definition group_entry (acc : option tree_entries) (p : string * info) : option tree_entries :=
  match acc, FromHexString (fst (snd p)) with
  | Some g, Some raw => Some (emplace_back raw (fst p, snd (snd p)) g)
  | _, _ => None
  end.
Definition SerializeGitTree (m : TreeEntries) : option string :=
  match fold_left group_entry m (Some []) with
  | Some g => Some (snd (CreateShallowTree H g))
  | None => None
  end.

(** Result of an asynchronous computation: the value, a fatal error, or the model ran out of fuel; with the
    trees stored so far. *)
Inductive outcome := Value (i : info) | Fatal | NoFuel.

(** [WriteTree], tree_operations_utils.cpp:244-267; uploading succeeds. *)
Definition WriteTree (st : store) (m : TreeEntries) : store * outcome :=
  match SerializeGitTree m with
  | Some d => (st ++ [d], Value (hex_tree_id d, Tree))
  | None => (st, Fatal)
  end.

(** The loop over the base entries, tree_operations_utils.cpp:327-375: overlay tree and pairs of trees still
    to be merged; [None] is the conflict. *)
Fixpoint overlay_loop (disjoint : bool) (base : TreeEntries) (ov : TreeEntries) (keys : list (string * (info * info)))
  : option (TreeEntries * list (string * (info * info))) :=
  match base with
  | [] => Some (ov, keys)
  | (n, b) :: r =>
      match alookup n ov with
      | None => overlay_loop disjoint r (ainsert n b ov) keys
      | Some o =>
          if info_eqb o b then overlay_loop disjoint r ov keys
          else if (IsTreeObject (snd b) && IsTreeObject (snd o))%bool then
            overlay_loop disjoint r ov (keys ++ [(n, (b, o))])
          else if disjoint then None
          else overlay_loop disjoint r ov keys
      end
  end.

(** The sub-calls, one after the other (tree_operations_utils.cpp:377-393): all values, or the first
    failure. *)
Fixpoint merge_keys (f : store -> info -> info -> store * outcome) (st : store)
  (keys : list (string * (info * info))) (ov : TreeEntries) : store * option TreeEntries * outcome :=
  match keys with
  | [] => (st, Some ov, Fatal)
  | (n, (b, o)) :: r =>
      match f st b o with
      | (st', Value v) => merge_keys f st' r (ainsert n v ov)
      | (st', e) => (st', None, e)
      end
  end.

(** [CreateTreeOverlayMap] and [ComputeTreeOverlay], tree_operations_utils.cpp:269-437. The map computes every
    pair at most once (C31); here a pair is recomputed, with the same result. *)
Fixpoint overlay (disjoint : bool) (fuel : nat) (st : store) (base other : info) : store * outcome :=
  match fuel with
  | O => (st, NoFuel)
  | S f =>
      if (negb (IsTreeObject (snd base)) || negb (IsTreeObject (snd other)))%bool then (st, Fatal)
      else if info_eqb base other then (st, Value base)
      else
        match ReadTreeInfo st base, ReadTreeInfo st other with
        | Some bt, Some ot =>
            match overlay_loop disjoint bt ot [] with
            | None => (st, Fatal)
            | Some (ov, keys) =>
                match merge_keys (overlay disjoint f) st keys ov with
                | (st', Some ov', _) => WriteTree st' ov'
                | (st', None, e) => (st', e)
                end
            end
        | _, _ => (st, Fatal)
        end
  end.

(** ** Tree structure *)

(** [TreeStructureCache] (tree_structure_cache.cpp): from the hash of a tree to that of its structure. *)
Definition scache : Type := list (string * string).

(** The loop body of [Compute], tree_structure_utils.cpp:70-101: the id of an entry's structure, added to the
    entries of the structure tree. The empty blob can be stored. *)
Definition structure_step (rec : store -> scache -> string -> store * scache * option string)
  (acc : store * scache * option tree_entries) (x : string * entry) : store * scache * option tree_entries :=
  match acc with
  | (st, c, Some se) =>
      let '(raw, e) := x in
      let '(st', c', dg) :=
        if IsTreeObject (snd e) then
          if digest_ok (ToHexString raw) then rec st c (ToHexString raw) else (st, c, None)
        else (st, c, Some (ToHexString (blob_id H ""))) in
      match dg with
      | Some hex =>
          match FromHexString hex with
          | Some id => (st', c', Some (emplace_back id e se))
          | None => (st', c', None)
          end
      | None => (st', c', None)
      end
  | _ => acc
  end.

(** [Compute], tree_structure_utils.cpp:42-130, returning the hash in hexadecimal. Trees can be stored;
    [cache.Set] (tree_structure_cache.cpp:101-124) fails if a different value is present. *)
Fixpoint Compute (fuel : nat) (st : store) (c : scache) (tree : string) : store * scache * option string :=
  match fuel with
  | O => (st, c, None)
  | S f =>
      match alookup tree c with
      | Some v => (st, c, Some v)
      | None =>
          match retrieve st (tree, Tree) with
          | None => (st, c, None)
          | Some d =>
              match ReadTreeData H (fun _ => true) d tree with
              | None => (st, c, None)
              | Some g =>
                  match fold_left (structure_step (Compute f))
                          (concat (map (fun gr => map (fun e => (fst gr, e)) (snd gr)) g)) (st, c, Some []) with
                  | (st1, c1, Some se) =>
                      let content := snd (CreateShallowTree H se) in
                      let v := hex_tree_id content in
                      match alookup tree c1 with
                      | Some w => (st1 ++ [content], c1, if String.eqb w v then Some v else None)
                      | None => (st1 ++ [content], ainsert tree v c1, Some v)
                      end
                  | (st1, c1, None) => (st1, c1, None)
                  end
              end
          end
      end
  end.

(** Several calls of [Compute] with one cache. *)
Fixpoint compute_all (fuel : nat) (st : store) (c : scache) (trees : list string) : store * scache * list (option string) :=
  match trees with
  | [] => (st, c, [])
  | t :: r =>
      let '(st1, c1, v) := Compute fuel st c t in
      let '(st2, c2, vs) := compute_all fuel st1 c1 r in
      (st2, c2, v :: vs)
  end.

End H.
