(** Model of the conversion of objects between the native (git) and the compatible (SHA256, [Directory] messages)
    storage: src/buildtool/execution_api/utils/rehash_utils.cpp, with [CreateDirectoryDigestFromGitTree] and
    [CreateGitTreeDigestFromDirectory] of src/buildtool/execution_api/bazel_msg/bazel_msg_factory.cpp. *)
From Coq Require Import String Ascii List Bool NArith Arith.
From Verif Require Import Common.Strs Hex.Model Describe.Model Executor.Wire Rehash.Directory.
From Verif Require Import GitTree.Model.
Import ListNotations.
Local Open Scope string_scope.
Local Open Scope list_scope.

(** [Artifact::ObjectInfo], artifact.hpp:42-56; [failed] is false for all objects here. *)
Definition info : Type := (digest * otype).

(** ** Programs

    What a conversion asks the storages to do, one access of the file system at a time; between them other threads and
    processes may do anything. *)
(** Result of [ReadRehashedDigest]: an error, no mapping file, or what was read. *)
Inductive lookup := LError | LNone | LFound (i : info).
Inductive prog (A : Type) : Type :=
| Ret (a : A)
| Lookup (h : string) (k : lookup -> prog A)             (* [ReadRehashedDigest] *)
| Remember (h : string) (i : info) (k : bool -> prog A)  (* [StoreRehashedDigest] *)
| Read (t : otype) (h : string) (k : option string -> prog A)  (* the read callback, with reading the file *)
| Store (tree : bool) (data : string) (k : bool -> prog A).    (* [StoreBlob], [StoreTree] in the target storage *)
Arguments Ret {A}. Arguments Lookup {A}. Arguments Remember {A}. Arguments Read {A}. Arguments Store {A}.

(** A value, an error message, undefined behaviour, or the model ran out of fuel. *)
Inductive outcome (A : Type) : Type := Value (a : A) | Failed | Crash | NoFuel.
Arguments Value {A}. Arguments Failed {A}. Arguments Crash {A}. Arguments NoFuel {A}.

Fixpoint bind {A B} (p : prog (outcome A)) (f : A -> prog (outcome B)) : prog (outcome B) :=
  match p with
  | Ret (Value a) => f a
  | Ret Failed => Ret Failed
  | Ret Crash => Ret Crash
  | Ret NoFuel => Ret NoFuel
  | Lookup h k => Lookup h (fun r => bind (k r) f)
  | Remember h i k => Remember h i (fun r => bind (k r) f)
  | Read t h k => Read t h (fun r => bind (k r) f)
  | Store t d k => Store t d (fun r => bind (k r) f)
  end.

(** [if (not x) { return unexpected...; }] *)
Definition or_fail {A B} (x : option A) (k : A -> prog (outcome B)) : prog (outcome B) :=
  match x with Some a => k a | None => Ret Failed end.
Definition if_ok {B} (ok : bool) (k : prog (outcome B)) : prog (outcome B) := if ok then k else Ret Failed.

Section Hash.
(** SHA1, as raw bytes; SHA256, in hexadecimal; the check for UTF-8 of protocol buffers; the order in which the hash map
    of tree entries is traversed. *)
Variable H : string -> string.
Variable H2 : string -> string.
Variable utf8 : string -> bool.
Variable ord : list (string * entry) -> list (string * entry).

(** Digest of an object in the compatible storage ([ArtifactDigestFactory::HashDataAs], artifact_digest_factory.hpp:76-87;
    there are no tree digests) and in the native one. *)
Definition comp_digest (data : string) : digest := mkDigest (H2 data) false (strlen data).
Definition nat_digest (tree : bool) (data : string) : digest :=
  mkDigest (ToHexString (if tree then tree_id H data else blob_id H data)) tree (strlen data).

(** ** From native to compatible *)

(** The vectors of nodes of [CreateDirectoryDigestFromGitTree]. *)
Definition nodes : Type := (list (string * (bool * digest)) * list (string * digest) * list (string * string)).
Definition add_file (a : nodes) (name : string) (x : bool) (d : digest) : nodes :=
  let '(f, s, l) := a in (f ++ [(name, (x, d))], s, l).
Definition add_dir (a : nodes) (name : string) (d : digest) : nodes := let '(f, s, l) := a in (f, s ++ [(name, d)], l).
Definition add_link (a : nodes) (name target : string) : nodes := let '(f, s, l) := a in (f, s, l ++ [(name, target)]).

(** The loop over the entries, bazel_msg_factory.cpp:405-511. *)
Fixpoint dir_entries (rec : string -> prog (outcome digest)) (l : list (string * entry)) (a : nodes)
  : prog (outcome nodes) :=
  match l with
  | [] => Ret (Value a)
  | (raw, (name, t)) :: r =>
      or_fail (create_digest GitSHA1 (ToHexString raw) 0 (IsTreeObject t)) (fun git_digest =>
      let h := d_hash git_digest in
      Lookup h (fun c =>
        match c with
        | LError => Ret Failed
        | _ =>
            match t with
            | Tree =>
                match c with
                | LFound i => dir_entries rec r (add_dir a name (fst i))
                | _ => bind (rec h) (fun d => dir_entries rec r (add_dir a name d))
                end
            | Symlink =>
                Read Symlink h (fun x => or_fail x (fun target =>
                Store false target (fun ok => if_ok ok (
                Remember h (comp_digest target, Symlink) (fun ok' => if_ok ok' (
                dir_entries rec r (add_link a name target)))))))
            | _ =>
                match c with
                | LFound i => dir_entries rec r (add_file a name (IsExecutableObject t) (fst i))
                | _ =>
                    Read t h (fun x => or_fail x (fun data =>
                    Store false data (fun ok => if_ok ok (
                    Remember h (comp_digest data, t) (fun ok' => if_ok ok' (
                    dir_entries rec r (add_file a name (IsExecutableObject t) (comp_digest data))))))))
                end
            end
        end))
  end.

(** All entries, in the order of traversal. *)
Definition flat (es : tree_entries) : list (string * entry) := concat (map (fun g => map (fun e => (fst g, e)) (snd g)) es).

(** [CreateDirectoryDigestFromGitTree], bazel_msg_factory.cpp:374-539. *)
Fixpoint to_directory (fuel : nat) (h : string) : prog (outcome digest) :=
  match fuel with
  | O => Ret NoFuel
  | S f =>
      Read Tree h (fun x => or_fail x (fun content =>
      or_fail (ReadTreeData H (fun _ => true) content h) (fun es =>
      bind (dir_entries (to_directory f) (ord (flat es)) ([], [], [])) (fun '(files, dirs, links) =>
      or_fail (SerializeMessage (directory_text (CreateDirectory files dirs links))) (fun bytes =>
      Store true bytes (fun ok => if_ok ok (
      Remember h (comp_digest bytes, Tree) (fun ok' => if_ok ok' (
      Ret (Value (comp_digest bytes)))))))))))
  end.

(** ** From compatible to native *)

(** [entries[raw_id].emplace_back(name, type)] for the hash of a digest; the error if it is not hexadecimal. *)
Definition add_entry {B} (es : tree_entries) (d : digest) (name : string) (t : otype) (k : tree_entries -> prog (outcome B))
  : prog (outcome B) :=
  or_fail (FromHexString (d_hash d)) (fun raw => k (emplace_back raw (name, t) es)).

(** Subdirectories, bazel_msg_factory.cpp:567-618. *)
Fixpoint tree_dirs (rec : string -> prog (outcome digest)) (l : list (string * digest)) (es : tree_entries)
  : prog (outcome tree_entries) :=
  match l with
  | [] => Ret (Value es)
  | (name, d0) :: r =>
      or_fail (create_digest PlainSHA256 (d_hash d0) (d_size d0) false) (fun d =>
      Lookup (d_hash d) (fun c =>
        match c with
        | LError => Ret Failed
        | LFound i => add_entry es (fst i) name Tree (tree_dirs rec r)
        | LNone => bind (rec (d_hash d)) (fun td => add_entry es td name Tree (tree_dirs rec r))
        end))
  end.

(** Symbolic links, bazel_msg_factory.cpp:620-669. *)
Fixpoint tree_links (l : list (string * string)) (es : tree_entries) : prog (outcome tree_entries) :=
  match l with
  | [] => Ret (Value es)
  | (name, target) :: r =>
      Lookup (H2 target) (fun c =>
        match c with
        | LError => Ret Failed
        | LFound i => add_entry es (fst i) name Symlink (tree_links r)
        | LNone =>
            Store false target (fun ok => if_ok ok (
            add_entry es (nat_digest false target) name Symlink (fun es' =>
            Remember (H2 target) (nat_digest false target, Symlink) (fun ok' => if_ok ok' (tree_links r es')))))
        end)
  end.

(** Files, bazel_msg_factory.cpp:671-728. *)
Fixpoint tree_files (l : list (string * (bool * digest))) (es : tree_entries) : prog (outcome tree_entries) :=
  match l with
  | [] => Ret (Value es)
  | (name, (x, d0)) :: r =>
      or_fail (create_digest PlainSHA256 (d_hash d0) (d_size d0) false) (fun d =>
      let t := if x then Executable else File in
      Lookup (d_hash d) (fun c =>
        match c with
        | LError => Ret Failed
        | LFound i => add_entry es (fst i) name t (tree_files r)
        | LNone =>
            Read t (d_hash d) (fun y => or_fail y (fun data =>
            Store false data (fun ok => if_ok ok (
            add_entry es (nat_digest false data) name t (fun es' =>
            Remember (d_hash d) (nat_digest false data, t) (fun ok' => if_ok ok' (tree_files r es')))))))
        end))
  end.

(** [CreateGitTreeDigestFromDirectory], bazel_msg_factory.cpp:541-750. Neither the result of parsing the message (line
    564) nor that of storing the tree (line 737) is checked before it is dereferenced. *)
Fixpoint to_git_tree (fuel : nat) (h : string) : prog (outcome digest) :=
  match fuel with
  | O => Ret NoFuel
  | S f =>
      Read Tree h (fun x => or_fail x (fun content =>
      match ParseDirectory utf8 content with
      | None => Ret Crash
      | Some dir =>
          bind (tree_dirs (to_git_tree f) (dm_dirs dir) []) (fun es1 =>
          bind (tree_links (dm_links dir) es1) (fun es2 =>
          bind (tree_files (dm_files dir) es2) (fun es3 =>
          let content' := snd (CreateShallowTree H es3) in
          Store true content' (fun ok =>
            if ok then
              Remember h (nat_digest true content', Tree) (fun ok' => if_ok ok' (Ret (Value (nat_digest true content'))))
            else Ret Crash))))
      end))
  end.

(** ** [RehashDigestImpl], rehash_utils.cpp:127-256; [native] tells whether the target storage is the native one. *)
Variable native : bool.
Definition target_digest (data : string) : digest := if native then nat_digest false data else comp_digest data.

Fixpoint Rehash (fuel : nat) (infos : list info) : prog (outcome (list info)) :=
  match infos with
  | [] => Ret (Value [])
  | (d, t) :: r =>
      let next (i : info) := bind (Rehash fuel r) (fun l => Ret (Value (i :: l))) in
      Lookup (d_hash d) (fun c =>
        match c with
        | LError => Ret Failed
        | LFound i => next i
        | LNone =>
            if IsTreeObject t then
              bind (if native then to_git_tree fuel (d_hash d) else to_directory fuel (d_hash d)) (fun d' => next (d', Tree))
            else
              Read t (d_hash d) (fun x => or_fail x (fun data =>
              Store false data (fun ok => if_ok ok (
              Remember (d_hash d) (target_digest data, t) (fun ok' => if_ok ok' (
              next (target_digest data, t)))))))
        end)
  end.

(** ** The storages

    Generations, youngest first; a garbage collection adds an empty one and removes the oldest
    (garbage_collector.cpp:205-236; both storages and the mapping files are in the same directories, config.hpp:98-103,
    fs_utils.cpp:112-120). Mapping files hold the target info ([ToString] and [FromString] of which are inverse, C40);
    there is one set of them for each target and kind of source. Reading a mapping file links it to the youngest
    generation, rehash_utils.cpp:71-96; writing one replaces an existing one. *)
Definition mapping : Type := list (string * info).
Definition objects : Type := list (bool * string).
Record state := mkState {
  st_maps : list mapping;
  st_objs : list objects;
  st_threads : list (list info * prog (outcome (list info)));
  (** Everything stored so far: not part of the program's state, but used to state properties. *)
  st_ever : objects
}.

Fixpoint find_mapping (ms : list mapping) (h : string) : option (nat * info) :=
  match ms with
  | [] => None
  | m :: r =>
      match alookup h m with
      | Some i => Some (0, i)
      | None => match find_mapping r h with Some (g, i) => Some (S g, i) | None => None end
      end
  end.
Definition add_young {V} (v : V) (gs : list (list V)) : list (list V) :=
  match gs with [] => [] | g :: r => (v :: g) :: r end.
Definition link_young (h : string) (found : nat * info) (ms : list mapping) : list mapping :=
  match fst found with O => ms | S _ => add_young (h, snd found) ms end.
Definition rotate {V} (gs : list (list V)) : list (list V) := [] :: removelast gs.

(** What the source storage may answer: an object with that id that it holds at some time. In compatible mode trees and
    blobs are the same objects (config.hpp:129-141). *)
Definition holds (source : objects) (t : otype) (h data : string) : Prop :=
  if native then (exists k, In (k, data) source) /\ H2 data = h
  else In (IsTreeObject t, data) source /\ d_hash (nat_digest (IsTreeObject t) data) = h.

Variable source : objects.

(** One access by a thread; it may fail if [faulty]. *)
Variable faulty : bool.
Inductive access {A} : prog A -> state -> prog A -> state -> Prop :=
| a_lookup_error h k s : faulty = true -> access (Lookup h k) s (k LError) s
| a_lookup_none h k s : find_mapping (st_maps s) h = None -> access (Lookup h k) s (k LNone) s
| a_lookup_found h k s g i : find_mapping (st_maps s) h = Some (g, i) ->
    access (Lookup h k) s (k (LFound i)) (mkState (link_young h (g, i) (st_maps s)) (st_objs s) (st_threads s) (st_ever s))
| a_remember h i k s :
    access (Remember h i k) s (k true) (mkState (add_young (h, i) (st_maps s)) (st_objs s) (st_threads s) (st_ever s))
| a_remember_fails h i k s : faulty = true -> access (Remember h i k) s (k false) s
| a_read t h k s data : holds source t h data -> access (Read t h k) s (k (Some data)) s
| a_read_fails t h k s : faulty = true -> access (Read t h k) s (k None) s
| a_store tree data k s :
    access (Store tree data k) s (k true)
      (mkState (st_maps s) (add_young (tree, data) (st_objs s)) (st_threads s) ((tree, data) :: st_ever s))
| a_store_fails tree data k s : faulty = true -> access (Store tree data k) s (k false) s.

(** Steps of the whole system: a thread starts converting, or accesses a storage; somebody else stores an object in the
    target storage; garbage is collected ([gc] tells whether this is considered). *)
Inductive step (gc : bool) (fuel : nat) : state -> state -> Prop :=
| s_start s infos :
    step gc fuel s (mkState (st_maps s) (st_objs s) (st_threads s ++ [(infos, Rehash fuel infos)]) (st_ever s))
| s_thread s ts1 infos p ts2 p' s' : st_threads s = ts1 ++ (infos, p) :: ts2 -> access p s p' s' ->
    step gc fuel s (mkState (st_maps s') (st_objs s') (ts1 ++ (infos, p') :: ts2) (st_ever s'))
| s_other s o :
    step gc fuel s (mkState (st_maps s) (add_young o (st_objs s)) (st_threads s) (o :: st_ever s))
| s_collect s : gc = true ->
    step gc fuel s (mkState (rotate (st_maps s)) (rotate (st_objs s)) (st_threads s) (st_ever s)).

(** Executions with [n] further generations, from empty storages. *)
Definition initial (n : nat) : state := mkState (repeat [] (S n)) (repeat [] (S n)) [] [].
Inductive reachable (gc : bool) (fuel n : nat) : state -> Prop :=
| r_initial : reachable gc fuel n (initial n)
| r_step s s' : reachable gc fuel n s -> step gc fuel s s' -> reachable gc fuel n s'.

End Hash.
