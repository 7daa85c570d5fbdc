(** Model of the resolution of symbolic links in trees,
    src/buildtool/file_system/symlinks/resolve_symlinks_map.{hpp,cpp} (pragma "special" of roots, used by
    src/other_tools/root_maps/fpath_git_map.cpp:139 and content_git_map.cpp:211).

    Simplifications. Git objects are represented by their values instead of by identifiers (that
    identifiers determine the values is C19), so reading an object that exists does not fail; source and
    target repository have the same objects (resolve_symlinks_map.cpp:28-105, [EnsureBlobExists], copies
    blobs and decides nothing). The entries of a rebuilt tree are kept in the order of the source;
    [GitRepo::CreateTree] sorts them (C19). *)
From Coq Require Import String Ascii List Bool.
From Verif Require Import Path.Model.
Import ListNotations.
Local Open Scope string_scope.
Local Open Scope list_scope.

(** The objects of a git tree: [ObjectType::File], [Executable], [Symlink] and [Tree]. *)
Inductive node : Type :=
| Blob (executable : bool) (content : string)
| Link (target : string)
| Dir (entries : list (string * node)).

Definition is_link (n : node) : bool := match n with Link _ => true | _ => false end.

Fixpoint entry_of (f : string) (es : list (string * node)) : option node :=
  match es with
  | [] => None
  | (g, n) :: r => if String.eqb g f then Some n else entry_of f r
  end.

(** [git_tree_entry_bypath] of libgit2 as used in git_repo.cpp:1549. *)
Fixpoint entry_bypath (n : node) (cs : list string) : option node :=
  match cs with
  | [] => Some n
  | c :: r => match n with
              | Dir es => match entry_of c es with Some m => entry_bypath m r | None => None end
              | _ => None
              end
  end.

(** [GitRepo::GetObjectByPathFromTree], git_repo.cpp:1502-1610. *)
Definition GetObjectByPathFromTree (tree : node) (rel_path : string) : option node :=
  if String.eqb rel_path "." then Some tree else entry_bypath tree (split_slash rel_path).

(** pragma_special.hpp:26-30. *)
Inductive special := Ignore | ResolvePartially | ResolveCompletely.
Definition ignoring (s : special) : bool := match s with Ignore => true | _ => false end.
Definition partially (s : special) : bool := match s with ResolvePartially => true | _ => false end.

(** [GitObjectToResolve], resolve_symlinks_map.hpp:38-77; the root tree and the pragma are the same for
    all keys of a run. Keys are compared by [q_path] only; the constructor normalises the path. *)
Record request := mkReq { q_path : string; q_info : option node }.
Definition to_resolve (p : string) (i : option node) : request := mkReq (ToNormalPath p) i.

(** [ResolvedGitObject], resolve_symlinks_map.hpp:81-85. *)
Record result := mkRes { r_node : node; r_path : string }.

(** What a value creator of an [AsyncMapConsumer] does: report a fatal error, set the value, or ask for
    the values of other keys and continue with them. *)
Inductive action : Type :=
| Fail
| Set_ (r : result)
| Ask (qs : list request) (k : list result -> action).

(** [ResolveKnownEntry], resolve_symlinks_map.cpp:109-294. *)
Definition resolve_known (md : special) (p : string) (n : node) : action :=
  match n with
  | Blob _ _ => Set_ (mkRes n p)
  | Dir es =>
      let kept := filter (fun e => negb (is_link (snd e)) || negb (ignoring md)) es in
      let qs := map (fun e => to_resolve (append p (fst e)) (Some (snd e))) kept in
      Ask qs (fun vs =>
        Set_ (mkRes (Dir (combine (map (fun q => filename (q_path q)) qs) (map r_node vs))) p))
  | Link c =>
      if ignoring md then Fail
      else if negb (PathIsConfined c p) then Fail
      else if partially md && PathIsNonUpwards c then Set_ (mkRes n p)
      else Ask [to_resolve (ToNormalPath (append (parent_path p) c)) None]
             (fun vs => match vs with [v] => Set_ v | _ => Fail end)
  end.

(** [CreateResolveSymlinksMap], resolve_symlinks_map.cpp:298-408: the value creator. *)
Definition create (md : special) (root : node) (q : request) : action :=
  match (match q_info q with
         | Some n => Some n
         | None => GetObjectByPathFromTree root (q_path q)
         end) with
  | Some n => resolve_known md (q_path q) n
  | None =>
      if ignoring md then Fail
      else
        let parent := parent_path (q_path q) in
        if String.eqb parent (q_path q) then Fail
        else Ask [to_resolve parent None] (fun vs =>
          match vs with
          | [v] =>
              match r_node v with
              | Dir _ =>
                  match GetObjectByPathFromTree (r_node v) (filename (q_path q)) with
                  | Some n => resolve_known md (ToNormalPath (append (r_path v) (filename (q_path q)))) n
                  | None => Fail
                  end
              | _ => Fail
              end
          | _ => Fail
          end)
  end.

(** The caller's request, fpath_git_map.cpp:139-146 and content_git_map.cpp:211-218. *)
Definition start : request := to_resolve "." None.

(** ** Runs (async_map_consumer.hpp, async_map.hpp, async_map_node.hpp; C31-C34)

    A key is created by the first request for it, with the information of that request, and its value
    is given to everyone who asked for the key. Which request is first depends on the schedule, so the
    relations below allow any of them: what holds of [value] holds in every schedule. Keys on a cycle
    and keys that depend on a failed key have no value. *)
Section Run.
  Context (mk : request -> action) (first : request).

  Inductive asked : request -> Prop :=
  | asked_first : asked first
  | asked_by q q' : asked q -> asks (mk q) q' -> asked q'
  with asks : action -> request -> Prop :=
  | asks_now qs k q : In q qs -> asks (Ask qs k) q
  | asks_later qs k vs q : answers qs vs -> asks (k vs) q -> asks (Ask qs k) q
  with answers : list request -> list result -> Prop :=
  | answers_nil : answers [] []
  | answers_cons q qs v vs : value (q_path q) v -> answers qs vs -> answers (q :: qs) (v :: vs)
  with yields : action -> result -> Prop :=
  | yields_set r : yields (Set_ r) r
  | yields_ask qs k vs r : answers qs vs -> yields (k vs) r -> yields (Ask qs k) r
  with value : string -> result -> Prop :=
  | value_of q r : asked q -> yields (mk q) r -> value (q_path q) r.
End Run.

(** The tree obtained for a root. *)
Definition resolves_to (md : special) (root m : node) : Prop :=
  exists p, value (create md root) start "." (mkRes m p).
