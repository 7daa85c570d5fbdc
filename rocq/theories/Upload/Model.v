(** Model of the input root of an action and of the transfer of trees to a content-addressable store (CAS), in
    native mode:
    src/buildtool/execution_api/bazel_msg/directory_tree.cpp,
    src/buildtool/execution_api/common/{blob_tree,common_api}.cpp,
    [VerifyOrUploadTree] and [VerifyOrUploadGitArtifact] of src/buildtool/execution_engine/executor/executor.hpp,
    [RetrieveToCas] of src/buildtool/execution_api/{git/git_api,local/local_api}.cpp with
    [ReadDirectTreeEntries] of common/tree_reader.hpp. *)
From Coq Require Import String Ascii List Bool NArith Arith.
From Verif Require Import Common.Strs Hex.Model Path.Model GitTree.Model TreeOps.Model.
Import ListNotations.
Local Open Scope string_scope.
Local Open Scope list_scope.
Local Open Scope nat_scope.

(** ** Directory trees *)

(** [DirectoryTree], directory_tree.hpp:39-68. A leaf is an artifact, of which only [Artifact::Info] is used
    (missing for artifacts that are not yet built). A directory is an unordered map; here in order of insertion. *)
Inductive dtree :=
| DArt (i : option info)
| DDir (ns : list (string * dtree)).

(** Overwriting the value of a present key. *)
Fixpoint assign (k : string) (v : dtree) (ns : list (string * dtree)) : list (string * dtree) :=
  match ns with
  | [] => []
  | (k', v') :: r => if String.eqb k k' then (k, v) :: r else (k', v') :: assign k v r
  end.

(** Private [AddArtifact], directory_tree.cpp:56-72; [None] is the result false, after which the tree is no longer
    used. *)
Fixpoint add_segments (segs : list string) (a : option info) (ns : list (string * dtree))
  : option (list (string * dtree)) :=
  match segs with
  | [] => None
  | seg :: rest =>
      if (String.eqb seg "." || String.eqb seg "..")%bool then None
      else
        match rest with
        | [] => match alookup seg ns with Some _ => None | None => Some (ns ++ [(seg, DArt a)]) end
        | _ =>
            match alookup seg ns with
            | None =>
                match add_segments rest a [] with
                | Some sub => Some (ns ++ [(seg, DDir sub)])
                | None => None
                end
            | Some (DDir sub) =>
                match add_segments rest a sub with
                | Some sub' => Some (assign seg (DDir sub') ns)
                | None => None
                end
            | Some (DArt _) => None
            end
        end
  end.

(** Public [AddArtifact], directory_tree.cpp:25-37; [IsRelativePath], file_system_manager.hpp:976-984. *)
Definition AddArtifact (path : string) (a : option info) (ns : list (string * dtree)) : option (list (string * dtree)) :=
  let norm := lexically_normal path in
  if (negb (nonempty norm) || is_absolute norm)%bool then None
  else add_segments (elements norm) a ns.

(** [FromNamedArtifacts], directory_tree.cpp:39-54. *)
Definition FromNamedArtifacts (arts : list (string * option info)) : option (list (string * dtree)) :=
  fold_left (fun acc p => match acc with Some ns => AddArtifact (fst p) (snd p) ns | None => None end) arts (Some []).

(** ** Blobs *)

(** [ArtifactBlob], common/artifact_blob.hpp:34-139, with its content. *)
Record blob := mkBlob { b_tree : bool; b_exec : bool; b_data : string }.

(** [ArtifactDigest] as compared: kind and hash (raw); the size is ignored by comparison (artifact_digest.hpp:51-53). *)
Definition digest : Type := (bool * string).
Definition digest_eqb (a b : digest) : bool := (Bool.eqb (fst a) (fst b) && String.eqb (snd a) (snd b))%bool.

Section H.
Variable H : string -> string.

(** [HashDataAs], artifact_digest_factory.hpp, in native mode. *)
Definition oid (t : bool) (data : string) : string := if t then tree_id H data else blob_id H data.
Definition b_digest (b : blob) : digest := (b_tree b, oid (b_tree b) (b_data b)).
(** [ArtifactBlob::FromMemory], artifact_blob.cpp:36-56. *)
Definition FromMemory (t : otype) (data : string) : blob := mkBlob (IsTreeObject t) (IsExecutableObject t) data.
(** [GetContentSize], artifact_blob.hpp:98-100. *)
Definition b_size (b : blob) : N := N.of_nat (String.length (b_data b)).
(** [operator==], artifact_blob.hpp:86-89. *)
Definition blob_eqb (a b : blob) : bool := (digest_eqb (b_digest a) (b_digest b) && Bool.eqb (b_exec a) (b_exec b))%bool.

(** ** Blob trees *)

(** [BlobTree], blob_tree.hpp:36-62. *)
Inductive btree := BT (b : blob) (nodes : list btree).
Definition bt_blob (t : btree) : blob := match t with BT b _ => b end.
Definition bt_nodes (t : btree) : list btree := match t with BT _ l => l end.

(** Iteration order of the directories. *)
Definition child : Type := (string * option (btree + info)).
Variable ord : list child -> list child.

(** The loop of [FromDirectoryTree], blob_tree.cpp:38-68, over the already converted children. *)
Definition add_child (acc : option (tree_entries * list btree)) (c : child) : option (tree_entries * list btree) :=
  match acc, c with
  | Some (es, nodes), (name, Some (inl bt)) =>
      match FromHexString (ToHexString (snd (b_digest (bt_blob bt)))) with
      | Some raw => Some (emplace_back raw (name, Tree) es, nodes ++ [bt])
      | None => None
      end
  | Some (es, nodes), (name, Some (inr i)) =>
      match FromHexString (fst i) with
      | Some raw => Some (emplace_back raw (name, snd i) es, nodes)
      | None => None
      end
  | _, _ => None
  end.

(** [FromDirectoryTree], blob_tree.cpp:31-83; [CreateShallowTree] succeeds (C19). *)
Definition finish (r : option (tree_entries * list btree)) : option btree :=
  match r with
  | Some (es, nodes) => Some (BT (FromMemory Tree (snd (CreateShallowTree H es))) nodes)
  | None => None
  end.
Fixpoint convert (t : dtree) : option (btree + info) :=
  match t with
  | DArt None => None
  | DArt (Some i) => Some (inr i)
  | DDir ns =>
      match finish (fold_left add_child (ord (map (fun p => (fst p, convert (snd p))) ns)) (Some ([], []))) with
      | Some bt => Some (inl bt)
      | None => None
      end
  end.
Definition FromDirectoryTree (ns : list (string * dtree)) : option btree :=
  match convert (DDir ns) with Some (inl bt) => Some bt | _ => None end.

(** ** Programs

    What the code does with the execution API of the target, and with the source of the objects. *)
Inductive prog (A : Type) :=
| Ret (a : A)
| GetMissing (ds : list digest) (k : list digest -> prog A) (* GetMissingDigests *)
| Available (d : digest) (k : bool -> prog A)               (* IsAvailable *)
| Upload (bs : list blob) (k : bool -> prog A)              (* Upload *)
| ReadTree (d : digest) (k : option string -> prog A)       (* reading a tree at the source *)
| ReadData (d : digest) (k : option string -> prog A).      (* reading an object at the source *)
Arguments Ret {A} a.
Arguments GetMissing {A} ds k.
Arguments Available {A} d k.
Arguments Upload {A} bs k.
Arguments ReadTree {A} d k.
Arguments ReadData {A} d k.

Fixpoint bind {A B} (p : prog A) (f : A -> prog B) : prog B :=
  match p with
  | Ret a => f a
  | GetMissing ds k => GetMissing ds (fun x => bind (k x) f)
  | Available d k => Available d (fun x => bind (k x) f)
  | Upload bs k => Upload bs (fun x => bind (k x) f)
  | ReadTree d k => ReadTree d (fun x => bind (k x) f)
  | ReadData d k => ReadData d (fun x => bind (k x) f)
  end.

(** [kMaxGrpcLength], message_limits.hpp:22. *)
Definition kMaxGrpcLength : N := 3145728.

Definition total (bs : list blob) : N := fold_right (fun b n => (b_size b + n)%N) 0%N bs.

(** [UpdateContainerAndUpload], common_api.cpp:207-257: the new container; [None] is the result false. *)
Definition UpdateContainerAndUpload (container : list blob) (b : blob) : prog (option (list blob)) :=
  if N.ltb kMaxGrpcLength (b_size b) then
    Upload [b] (fun ok => Ret (if ok then Some container else None))
  else if existsb (blob_eqb b) container then Ret (Some container)
  else if N.ltb kMaxGrpcLength (total container + b_size b) then
    Upload container (fun ok => Ret (if ok then Some [b] else None))
  else Ret (Some (b :: container)).

(** [BackMap], back_map.hpp:67-102: keys, and for a key the first element with that key. *)
Fixpoint dedup (ds : list digest) : list digest :=
  match ds with
  | [] => []
  | d :: r => d :: filter (fun x => negb (digest_eqb d x)) (dedup r)
  end.
Fixpoint lookup {V} (d : digest) (l : list (digest * V)) : option V :=
  match l with
  | [] => None
  | (d', v) :: r => if digest_eqb d d' then Some v else lookup d r
  end.
(** [GetValues], [GetReferences], [IterateReferences], back_map.hpp:123-180; the order of the keys is arbitrary. *)
Fixpoint select {V} (ms : list digest) (l : list (digest * V)) : list V :=
  match ms with
  | [] => []
  | d :: r => match lookup d l with Some v => v :: select r l | None => select r l end
  end.

(** The loop over the missing nodes in [CommonUploadBlobTree], common_api.cpp:119-140. A node is given by its blob
    and the recursive call for it. *)
Fixpoint upload_nodes (nodes : list (blob * prog bool)) (container : list blob) : prog bool :=
  match nodes with
  | [] => Upload container (fun ok => Ret ok)
  | (b, rec) :: r =>
      let add := bind (UpdateContainerAndUpload container b)
                   (fun c => match c with Some c' => upload_nodes r c' | None => Ret false end) in
      if b_tree b then bind rec (fun ok => if ok then add else Ret false) else add
  end.

(** [CommonUploadBlobTree], common_api.cpp:101-141. *)
Fixpoint CommonUploadBlobTree (t : btree) : prog bool :=
  match t with
  | BT _ nodes =>
      let subs := map (fun n => (b_digest (bt_blob n), (bt_blob n, CommonUploadBlobTree n))) nodes in
      GetMissing (dedup (map fst subs)) (fun ms => upload_nodes (select ms subs) [])
  end.

(** [CommonUploadTreeNative], common_api.cpp:179-205. *)
Definition CommonUploadTreeNative (build_root : list (string * dtree)) : prog (option digest) :=
  match FromDirectoryTree build_root with
  | None => Ret None
  | Some bt =>
      let d := b_digest (bt_blob bt) in
      Available d (fun found =>
        if found then Ret (Some d)
        else bind (CommonUploadBlobTree bt) (fun ok =>
               if ok then Upload [bt_blob bt] (fun ok => Ret (if ok then Some d else None))
               else Ret None))
  end.

(** [LocalApi::UploadTree], local_api.cpp:260-273; [BazelApi::UploadTree], bazel_api.cpp:512-524. *)
Definition UploadTree (arts : list (string * option info)) : prog (option digest) :=
  match FromNamedArtifacts arts with
  | None => Ret None
  | Some ns => CommonUploadTreeNative ns
  end.

(** ** Transfer of existing trees *)

(** The entries of a [GitTree] (git_tree.hpp:40-120): name, type, raw id. *)
Definition entry_digest (e : string * (otype * string)) : digest := (IsTreeObject (fst (snd e)), snd (snd e)).
Definition entries_of (es : tree_entries) : list (string * (otype * string)) :=
  concat (map (fun g => map (fun e => (fst e, (snd e, fst g))) (snd g)) es).
(** [GitTree::Read] and [GitTreeEntry::Tree] on the content of the tree, git_tree.cpp:87-113 and 154-176; symlinks are
    checked by [check]. *)
Variable check : list string -> bool.
Definition tree_items (data : string) : option (list (string * (otype * string))) :=
  match GitTree.Model.ReadTree check false data with
  | Some es => Some (entries_of es)
  | None => None
  end.

(** The first loop of [VerifyOrUploadTree], executor.hpp:425-434: recursion for missing trees. *)
Fixpoint verify_trees (rec : list (string * (otype * string)) -> prog bool) (es : list (string * (otype * string)))
  : prog bool :=
  match es with
  | [] => Ret true
  | e :: r =>
      if IsTreeObject (fst (snd e)) then
        ReadTree (entry_digest e) (fun c =>
          match (match c with Some data => tree_items data | None => None end) with
          | Some items => bind (rec items) (fun ok => if ok then verify_trees rec r else Ret false)
          | None => Ret false
          end)
      else verify_trees rec r
  end.
(** The second loop, executor.hpp:436-464. *)
Fixpoint upload_entries (es : list (string * (otype * string))) (container : list blob) : prog bool :=
  match es with
  | [] => Upload container (fun ok => Ret ok)
  | e :: r =>
      ReadData (entry_digest e) (fun c =>
        match c with
        | Some data =>
            bind (UpdateContainerAndUpload container (FromMemory (fst (snd e)) data))
              (fun c => match c with Some c' => upload_entries r c' | None => Ret false end)
        | None => Ret false
        end)
  end.

(** [VerifyOrUploadTree], executor.hpp:391-465. The sizes of the entries
    (line 402) are assumed to be readable, see DESIGN.md. The depth of recursion is bounded by [fuel]; beyond it the model
    gives up (result false). *)
Fixpoint VerifyOrUploadTree (fuel : nat) (tree : list (string * (otype * string))) : prog bool :=
  match fuel with
  | O => Ret false
  | S f =>
      let back := map (fun e => (entry_digest e, e)) tree in
      GetMissing (dedup (map fst back)) (fun ms =>
        let missing := select ms back in
        bind (verify_trees (VerifyOrUploadTree f) missing) (fun ok =>
          if ok then upload_entries missing [] else Ret false))
  end.

(** [VerifyOrUploadGitArtifact], executor.hpp:473-517. *)
Definition VerifyOrUploadGitArtifact (fuel : nat) (t : otype) (id : string) : prog bool :=
  let upload (c : option string) :=
    match c with
    | Some data => Upload [FromMemory t data] (fun ok => Ret ok)
    | None => Ret false
    end in
  if IsTreeObject t then
    ReadTree (true, id) (fun c =>
      match (match c with Some data => tree_items data | None => None end) with
      | Some items => bind (VerifyOrUploadTree fuel items) (fun ok =>
          if ok then ReadData (true, id) upload else Ret false)
      | None => Ret false
      end)
  else ReadData (false, id) upload.

(** [GitApi::RetrieveToCas], git_api.cpp:170-251: the artifacts are given as entries without name. *)
Fixpoint git_loop (rec : list (string * (otype * string)) -> prog bool) (missing : list (string * (otype * string)))
  (container : list blob) : prog bool :=
  match missing with
  | [] => Upload container (fun ok => Ret ok)
  | e :: r =>
      let add (c : option string) :=
        match c with
        | Some data =>
            bind (UpdateContainerAndUpload container (FromMemory (fst (snd e)) data))
              (fun c => match c with Some c' => git_loop rec r c' | None => Ret false end)
        | None => Ret false
        end in
      if IsTreeObject (fst (snd e)) then
        ReadTree (entry_digest e) (fun c =>
          match (match c with Some data => tree_items data | None => None end) with
          | Some items => bind (rec items) (fun ok => if ok then ReadData (entry_digest e) add else Ret false)
          | None => Ret false
          end)
      else ReadData (entry_digest e) add
  end.
Fixpoint GitRetrieveToCas (fuel : nat) (infos : list (string * (otype * string))) : prog bool :=
  match fuel with
  | O => Ret false
  | S f =>
      let back := map (fun e => (entry_digest e, e)) infos in
      GetMissing (dedup (map fst back)) (fun ms => git_loop (GitRetrieveToCas f) (select ms back) [])
  end.

(** [ReadDirectTreeEntries], tree_reader.hpp:48-77: if the tree cannot be read, the result is an empty list. *)
Definition direct_entries (c : option string) : list (string * (otype * string)) :=
  match (match c with Some data => tree_items data | None => None end) with
  | Some items => items
  | None => []
  end.

(** [LocalApi::RetrieveToCas], local_api.cpp:151-210; the target is another CAS. *)
Fixpoint local_loop (rec : list (string * (otype * string)) -> prog bool) (missing : list (string * (otype * string)))
  (container : list blob) : prog bool :=
  match missing with
  | [] => Upload container (fun ok => Ret ok)
  | e :: r =>
      let add :=
        ReadData (entry_digest e) (fun c =>
          match c with
          | Some data =>
              let b := FromMemory (fst (snd e)) data in
              local_loop rec r (if existsb (blob_eqb b) container then container else b :: container)
          | None => Ret false
          end) in
      if IsTreeObject (fst (snd e)) then
        ReadTree (entry_digest e) (fun c =>
          bind (rec (direct_entries c)) (fun ok => if ok then add else Ret false))
      else add
  end.
Fixpoint LocalRetrieveToCas (fuel : nat) (infos : list (string * (otype * string))) : prog bool :=
  match fuel with
  | O => Ret false
  | S f =>
      let back := map (fun e => (entry_digest e, e)) infos in
      GetMissing (dedup (map fst back)) (fun ms => local_loop (LocalRetrieveToCas f) (select ms back) [])
  end.

End H.

Arguments Ret {A} a.
Arguments GetMissing {A} ds k.
Arguments Available {A} d k.
Arguments Upload {A} bs k.
Arguments ReadTree {A} d k.
Arguments ReadData {A} d k.
