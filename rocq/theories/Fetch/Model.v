(** How just-mr sets up the roots of repositories: src/other_tools/ops_maps/content_cas_map.cpp,
    git_tree_fetch_map.cpp and src/other_tools/root_maps/{content,commit,tree_id,distdir,foreign_file}_git_map.cpp.
    Each setting up of a root is a program over the operations of World.v. Progress reporting, messages and the flag
    whether it was a cache hit are left out. The asynchronous maps run each program at most once per description;
    here any number of runs can happen at any time. *)
From Coq Require Import String Ascii List Bool NArith Arith.
From Verif Require Import Common.Strs Hex.Model Describe.Model Executor.Wire Rehash.Directory Rehash.DirectoryProofs.
From Verif Require Import GitTree.Model GitTree.Spec GitTree.Ids TreeOps.Spec Rehash.Model Rehash.Spec Fetch.World.
Import ListNotations.
Local Open Scope string_scope.
Local Open Scope list_scope.
Local Open Scope nat_scope.

(** A workspace root: a tree in one of the local repositories, or one only known to the serve endpoint (the JSON array
    has no third entry); with the marker telling to ignore special entries. *)
Inductive root :=
| Present (ignore : bool) (tree : string) (l : loc)
| Absent (ignore : bool) (tree : string).
(** [Error]: the logger is called with fatal; [Crash]: an exception that nobody expects ([std::optional::value] of
    an empty optional). *)
Inductive outcome := Root (r : root) | Error | Crash.
Definition program : Type := prog outcome.

Notation "x <- o ; k" := (Do o (fun x => k)) (at level 90, o at level 0, right associativity, only parsing).
Notation "'fail'" := (Ret Error).

(** What is given on the command line, or by the configuration: a serve endpoint, a remote CAS, the compatible
    protocol, whether roots marked absent shall be fetched, and the number of generations. *)
Record config := mkConfig { c_serve : bool; c_remote : bool; c_compat : bool; c_fetch_absent : bool; c_gens : nat }.

(** [ArchiveContent], content_cas_map.hpp:36-51: the pinned hash, whether there is a URL, and the check of the
    optional SHA256 and SHA512 sums. The names of distfile, URL and mirrors are left out. *)
Record archive := mkArchive { a_content : string; a_url : bool; a_sums : string -> bool }.

Section Code.
Variable H : string -> string.
Variable cfg : config.
Notation blob_hash := (blob_hash H).

(** The generations that are looked at in a loop: 1, 2, ... *)
Definition old_gens : list nat := seq 1 (c_gens cfg - 1).

(** ** content_cas_map.cpp *)

(** FetchFromNetwork, content_cas_map.cpp:38-107. *)
Definition fetch_from_network (a : archive) (next : program) : program :=
  if a_url a then
    r <- Download ;
    match r with
    | None => fail
    | Some data =>
        if a_sums a data then
          ok <- (StoreBlob data) ;
          if ok then
            b <- (HasBlob (a_content a)) ;
            if b then next else fail
          else fail
        else fail
    end
  else fail.

(** The loop over older generations, content_cas_map.cpp:221-255. *)
Fixpoint blob_in_old (gs : list nat) (h : string) (next other : program) : program :=
  match gs with
  | [] => other
  | g :: r =>
      x <- (GitBlob g h) ;
      match x with
      | Some (Some data) =>
          ok <- (StoreBlob data) ;
          if ok then next else fail
      | _ => blob_in_old r h next other
      end
  end.

(** CreateContentCASMap, content_cas_map.cpp:111-370: afterwards [next]. *)
Definition content_cas (a : archive) (next : program) : program :=
  let h := a_content a in
  let remote_native :=
    if negb (c_compat cfg) && c_remote cfg then
      ok <- (RemoteBlob (Native h)) ;
      if ok then next else fetch_from_network a next
    else fetch_from_network a next in
  b <- (HasBlob h) ;
  if b then next else
  x <- (GitBlob 0 h) ;
  match x with
  | None => fail
  | Some (Some data) =>
      ok <- (StoreBlob data) ;
      if ok then next else fail
  | Some None =>
      blob_in_old old_gens h next (
        _ <- Distdirs ;
        b <- (HasBlob h) ;
        if b then next else
        if c_serve cfg && c_remote cfg then
          d <- (ServeContent h) ;
          match d with
          | None => remote_native
          | Some d =>
              ok <- (RemoteBlob d) ;
              if ok then
                if String.eqb (served_hash d) h then next
                else if c_compat cfg then
                  c <- (CompatBlob (served_hash d)) ;
                  match c with
                  | None => fail
                  | Some data =>
                      ok <- (StoreBlob data) ;
                      if ok && String.eqb (blob_hash data) h then
                        ok <- (Note h (blob_hash data)) ;
                        if ok then next else fail
                      else fail
                  end
                else fail
              else remote_native
          end
        else remote_native)
  end.

(** ** content_git_map.cpp *)

(** EnsureRootAsAbsent: content_git_map.cpp:65-154, commit_git_map.cpp:72-151, distdir_git_map.cpp:172-262. [hit] tells
    whether the serve endpoint is asked to set up the root itself; [ignore] is the marker. *)
Definition ensure_absent (q : query) (hit ignore : bool) (t : string) : program :=
  if c_serve cfg then
    has <- (ServeHas t) ;
    match has with
    | None => fail
    | Some true => Ret (Root (Absent ignore t))
    | Some false =>
        let upload :=
          ok <- (Upload t) ;
          if ok then Ret (Root (Absent ignore t)) else fail in
        if hit then
          r <- (Serve q) ;
          match r with
          | Found t' _ => if String.eqb t t' then Ret (Root (Absent ignore t)) else fail
          | Fatal => fail
          | NotFound => upload
          end
        else upload
    end
  else Ret (Root (Absent ignore t)).

Record archive_repo := mkArchiveRepo {
  r_archive : archive; r_type : string; r_subdir : list string; r_pragma : option pragma; r_absent : bool }.
Definition archive_query (r : archive_repo) : query := QArchive (r_type r) (a_content (r_archive r)) (r_subdir r) (r_pragma r).
Definition archive_key (r : archive_repo) : akey := AArchive (r_type r) (a_content (r_archive r)).

(** Setting the root, in ResolveContentTree. For present roots [serve] is not used. *)
Definition set_root (r : archive_repo) (hit absent : bool) (t : string) : program :=
  if absent then ensure_absent (archive_query r) hit false t else Ret (Root (Present false t (Gen 0))).

(** ResolveContentTree, content_git_map.cpp:159-318. *)
Definition resolve_content (r : archive_repo) (hit absent : bool) (t : string) : program :=
  match r_pragma r with
  | None => set_root r hit absent t
  | Some p =>
      b <- (Known 0 (AResolved p t)) ;
      if b then
        x <- (ReadKnown 0 (AResolved p t)) ;
        match x with
        | None => fail
        | Some t' => set_root r hit absent t'
        end
      else
        x <- (Resolve p t) ;
        match x with
        | None => fail
        | Some t' =>
            ok <- (KeepTree 0 t') ;
            if ok then
              ok <- (Write (AResolved p t) t') ;
              if ok then set_root r hit absent t' else fail
            else fail
        end
  end.

(** ExtractAndImportToGit, content_git_map.cpp:386-475, with WriteIdFileAndSetWSRoot, 323-381, for the content [data]. *)
Definition extract_and_import (r : archive_repo) (absent : bool) (data : string) : program :=
  x <- (Extract (r_type r) data) ;
  match x with
  | None => fail
  | Some n =>
      x <- (Import n) ;
      match x with
      | None => fail
      | Some t =>
          ok <- (Write (archive_key r) t) ;
          if ok then
            x <- (TreeEntry (Gen 0) t (r_subdir r)) ;
            match x with
            | None => fail
            | Some t' => resolve_content r false absent t'
            end
          else fail
      end
  end.

(** HandleLocallyKnownTree, content_git_map.cpp:496-583. *)
Definition locally_known (r : archive_repo) : program :=
  x <- (ReadKnown 0 (archive_key r)) ;
  match x with
  | None => fail
  | Some t =>
      x <- (TreeEntry (Gen 0) t (r_subdir r)) ;
      match x with
      | None => fail
      | Some t' => resolve_content r true (r_absent r && negb (c_fetch_absent cfg)) t'
      end
  end.

(** HandleKnownInOlderGeneration and what follows it, content_git_map.cpp:585-846. *)
Definition known_in_old (r : archive_repo) (g : nat) : program :=
  x <- (ReadKnown g (archive_key r)) ;
  match x with
  | None => fail
  | Some t =>
      ok <- (KeepTree g t) ;
      if ok then
        ok <- (TakeTree g t) ;
        if ok then
          ok <- (KeepTree 0 t) ;
          if ok then
            ok <- (Write (archive_key r) t) ;
            if ok then locally_known r else fail
          else fail
        else fail
      else fail
  end.
(** IdFileExistsInOlderGeneration, content_git_map.cpp:477-494. *)
Fixpoint search_old (gs : list nat) (k : akey) (found : nat -> program) (other : program) : program :=
  match gs with
  | [] => other
  | g :: r =>
      b <- (Known g k) ;
      if b then found g else search_old r k found other
  end.

(** CreateContentGitMap, content_git_map.cpp:850-1158. *)
Definition archive_root (r : archive_repo) : program :=
  let h := a_content (r_archive r) in
  b <- (Known 0 (archive_key r)) ;
  if b then locally_known r else
  search_old old_gens (archive_key r) (known_in_old r) (
    if r_absent r && negb (c_fetch_absent cfg) then
      let local :=
        x <- (ReadBlob h) ;
        match x with
        | Some data => extract_and_import r true data
        | None =>
            x <- (GitBlob 0 h) ;
            match x with
            | None => fail
            | Some (Some data) =>
                ok <- (StoreBlob data) ;
                if ok then
                  x <- (ReadBlob h) ;
                  match x with Some data => extract_and_import r true data | None => fail end
                else fail
            | Some None =>
                _ <- Distdirs ;
                x <- (ReadBlob h) ;
                match x with Some data => extract_and_import r true data | None => fail end
            end
        end in
      if c_serve cfg then
        x <- (Serve (archive_query r)) ;
        match x with
        | Found t _ => Ret (Root (Absent false t))
        | Fatal => fail
        | NotFound => local
        end
      else local
    else
      content_cas (r_archive r) (
        x <- (ReadBlob h) ;
        match x with
        | Some data => extract_and_import r false data
        | None => Ret Crash
        end)).

(** ** git_tree_fetch_map.cpp and tree_id_git_map.cpp *)

Record tree_repo := mkTreeRepo { t_hash : string; t_ignore : bool; t_absent : bool }.

(** MoveCASTreeToGit, git_tree_fetch_map.cpp:73-141; tree_id_git_map.cpp:61-118. *)
Definition move_cas_tree (d : served) (next : program) : program :=
  x <- (InstallTree d) ;
  match x with
  | None => fail
  | Some n =>
      x <- (Import n) ;
      match x with None => fail | Some _ => next end
  end.

(** Whether a directory, or one of those in it, has this id: what CheckTreeExists tells in the temporary repository
    to which only that directory has been imported, git_tree_fetch_map.cpp:592-640. *)
Definition contains_tree (n : fnode) (t : string) : bool :=
  existsb (fun m => is_dir m && String.eqb (git_hash H m) t) (parts n).

(** CreateGitTreeFetchMap, git_tree_fetch_map.cpp:277-779. The backup to the remote storage is left out: its failure
    is ignored (BackupToRemote). *)
Fixpoint tree_in_old (gs : list nat) (t : string) (next other : program) : program :=
  match gs with
  | [] => other
  | g :: r =>
      x <- (HasTree (Gen g) t) ;
      match x with
      | Some true =>
          ok <- (KeepTree g t) ;
          if ok then
            ok <- (TakeTree g t) ;
            if ok then
              ok <- (KeepTree 0 t) ;
              if ok then next else fail
            else fail
          else fail
      | _ => tree_in_old r t next other
      end
  end.
Definition git_tree_fetch (t : string) (next : program) : program :=
  let command :=
    x <- RunCommand ;
    match x with
    | None => fail
    | Some n =>
        if contains_tree n t then
          x <- (Import n) ;
          match x with
          | None => fail
          | Some _ =>
              ok <- (KeepTree 0 t) ;
              if ok then next else fail
          end
        else fail
    end in
  let remote_native :=
    if negb (c_compat cfg) && c_remote cfg then
      ok <- (RemoteTree (Native t)) ;
      if ok then move_cas_tree (Native t) next else command
    else command in
  x <- (HasTree (Gen 0) t) ;
  match x with
  | None => fail
  | Some true => next
  | Some false =>
      tree_in_old old_gens t next (
        b <- (HasCasTree t) ;
        if b then move_cas_tree (Native t) next
        else if c_serve cfg && c_remote cfg then
          d <- (ServeTree t) ;
          match d with
          | None => remote_native
          | Some d =>
              ok <- (RemoteTree d) ;
              if ok then move_cas_tree d next else remote_native
          end
        else remote_native)
  end.

(** CreateTreeIdGitMap, tree_id_git_map.cpp:122-362. *)
Definition tree_root (r : tree_repo) : program :=
  let t := t_hash r in
  let absent := Ret (Root (Absent (t_ignore r) t)) in
  let upload :=
    ok <- (Upload t) ;
    if ok then absent else fail in
  if t_absent r && negb (c_fetch_absent cfg) then
    if c_serve cfg then
      has <- (ServeHas t) ;
      match has with
      | None => fail
      | Some true => absent
      | Some false =>
          if c_remote cfg then
            b <- (RemoteHas t) ;
            if b then
              ok <- (ServeGet t) ;
              if ok then absent else fail
            else
              x <- (HasTree (Gen 0) t) ;
              match x with
              | None => fail
              | Some true => upload
              | Some false =>
                  b <- (HasCasTree t) ;
                  if b then move_cas_tree (Native t) upload else fail
              end
          else fail
      end
    else absent
  else git_tree_fetch t (Ret (Root (Present (t_ignore r) t (Gen 0)))).

(** ** commit_git_map.cpp *)

(** [m_checkout]: the URL is the one of a local checkout given to just-mr (GetGitRoot, fs_utils.cpp:44-68). *)
Record commit_repo := mkCommitRepo {
  m_commit : string; m_subdir : list string; m_ignore : bool; m_absent : bool; m_checkout : bool }.
Definition commit_loc (r : commit_repo) : loc := if m_checkout r then Checkout else Gen 0.
Definition commit_query (r : commit_repo) : query := QCommit (m_commit r) (m_subdir r).

(** TagAndSetRoot, commit_git_map.cpp:205-272. *)
Definition tag_and_set (r : commit_repo) : program :=
  ok <- (KeepTag (commit_loc r) (m_commit r)) ;
  if ok then
    x <- (CommitEntry (commit_loc r) (m_commit r) (m_subdir r)) ;
    match x with
    | None => fail
    | Some t => Ret (Root (Present (m_ignore r) t (commit_loc r)))
    end
  else fail.

(** The loop over older generations, commit_git_map.cpp:633-664, with TakeCommitFromOlderGeneration, 274-342. *)
Fixpoint commit_in_old (gs : list nat) (r : commit_repo) (other : program) : program :=
  match gs with
  | [] => other
  | g :: rest =>
      x <- (HasCommit (Gen g) (m_commit r)) ;
      match x with
      | Some true =>
          ok <- (KeepTag (Gen g) (m_commit r)) ;
          if ok then
            ok <- (TakeCommit g (m_commit r) (commit_loc r)) ;
            if ok then tag_and_set r else fail
          else fail
      | _ => commit_in_old rest r other
      end
  end.

(** NetworkFetchAndSetPresentRoot, commit_git_map.cpp:344-517. *)
Definition network_fetch (r : commit_repo) : program :=
  if m_absent r && negb (c_fetch_absent cfg) then fail else
  ok <- (FetchGit (commit_loc r)) ;
  if ok then
    x <- (HasCommit (commit_loc r) (m_commit r)) ;
    match x with
    | Some true =>
        if place_eqb (commit_loc r) (Gen 0) then tag_and_set r
        else
          x <- (CommitEntry (commit_loc r) (m_commit r) (m_subdir r)) ;
          match x with
          | None => fail
          | Some t => Ret (Root (Present (m_ignore r) t (commit_loc r)))
          end
    | _ => fail
    end
  else fail.

(** WriteIdFileAndSetWSRoot, commit_git_map.cpp:156-203. *)
Definition write_and_set (r : commit_repo) (t : string) : program :=
  ok <- (Write (ACommit (m_commit r)) t) ;
  if ok then
    x <- (TreeEntry (Gen 0) t (m_subdir r)) ;
    match x with
    | None => fail
    | Some t' => Ret (Root (Present (m_ignore r) t' (Gen 0)))
    end
  else fail.

(** EnsureCommit, commit_git_map.cpp:524-1085, called by CreateCommitGitMap, 1090-1195. *)
Definition commit_root (r : commit_repo) : program :=
  let absent := m_absent r && negb (c_fetch_absent cfg) in
  let set t l := if absent then ensure_absent (commit_query r) true (m_ignore r) t
                 else Ret (Root (Present (m_ignore r) t l)) in
  x <- (HasCommit (commit_loc r) (m_commit r)) ;
  match x with
  | None => fail
  | Some true =>
      x <- (CommitEntry (commit_loc r) (m_commit r) (m_subdir r)) ;
      match x with
      | None => fail
      | Some t => set t (commit_loc r)
      end
  | Some false =>
      b <- (Known 0 (ACommit (m_commit r))) ;
      if b then
        x <- (ReadKnown 0 (ACommit (m_commit r))) ;
        match x with
        | None => fail
        | Some t =>
            x <- (TreeEntry (Gen 0) t (m_subdir r)) ;
            match x with
            | None => fail
            | Some t' => set t' (Gen 0)
            end
        end
      else
        commit_in_old old_gens r (
          if c_serve cfg then
            if absent then
              x <- (Serve (commit_query r)) ;
              match x with
              | Found t _ => Ret (Root (Absent (m_ignore r) t))
              | Fatal => fail
              | NotFound => network_fetch r
              end
            else
              x <- (Serve (QCommit (m_commit r) [])) ;
              match x with
              | Found t d =>
                  let from_remote :=
                    match d with
                    | Some d =>
                        if c_remote cfg then
                          ok <- (RemoteTree d) ;
                          if ok then
                            x <- (InstallTree d) ;
                            match x with
                            | None => fail
                            | Some n =>
                                x <- (Import n) ;
                                match x with
                                | None => fail
                                | Some t' => if String.eqb t' t then write_and_set r t else fail
                                end
                            end
                          else network_fetch r
                        else network_fetch r
                    | None => network_fetch r
                    end in
                  x <- (HasTree (Gen 0) t) ;
                  match x with
                  | None => fail
                  | Some true => write_and_set r t
                  | Some false =>
                      if place_eqb (commit_loc r) (Gen 0) then from_remote
                      else
                        x <- (HasTree (commit_loc r) t) ;
                        match x with
                        | None => fail
                        | Some true =>
                            x <- (TreeEntry (commit_loc r) t (m_subdir r)) ;
                            match x with
                            | None => fail
                            | Some t' => Ret (Root (Present (m_ignore r) t' (commit_loc r)))
                            end
                        | Some false => from_remote
                        end
                  end
              | Fatal => fail
              | NotFound => network_fetch r
              end
          else network_fetch r)
  end.

(** ** distdir_git_map.cpp and foreign_file_git_map.cpp *)

(** [d_entries]: names and content hashes, sorted by name without repetition (a map); [d_fetch]: the archives to be
    fetched. *)
Record distdir_repo := mkDistdir { d_entries : list (string * string); d_fetch : list archive; d_absent : bool }.
Record foreign_repo := mkForeign { f_archive : archive; f_name : string; f_exec : bool; f_absent : bool }.
Definition distdir_key (d : distdir_repo) : list (string * (string * bool)) :=
  map (fun p => (fst p, (snd p, false))) (d_entries d).
Definition foreign_key (f : foreign_repo) : list (string * (string * bool)) := [(f_name f, (a_content (f_archive f), f_exec f))].

(** The tree computed in memory, distdir_git_map.cpp:288-326, foreign_file_git_map.cpp:138-160. *)
Fixpoint memory_entries (l : list (string * (string * bool))) (acc : tree_entries) : option tree_entries :=
  match l with
  | [] => Some acc
  | (x, (h, e)) :: r =>
      match FromHexString h with
      | None => None
      | Some raw => memory_entries r (emplace_back raw (x, if e then Executable else File) acc)
      end
  end.
Definition memory_tree (l : list (string * (string * bool))) : option string :=
  match memory_entries l [] with
  | None => None
  | Some es => Some (ToHexString (fst (CreateShallowTree H es)))
  end.

(** LinkToCAS, distdir_git_map.cpp:41-70, and foreign_file_git_map.cpp:76-98: a directory with the files from the CAS.
    A name that already exists, or cannot be created, is an error: here names given twice, or that are no names. *)
Definition file_name (x : string) : bool :=
  negb (String.eqb x "") && negb (String.eqb x ".") && negb (String.eqb x "..") &&
  negb (existsb (fun c => Ascii.eqb c "/" || Ascii.eqb c "000")%char (list_ascii_of_string x)).
Definition add_file (x : string) (n : fnode) (es : list (string * fnode)) : option (list (string * fnode)) :=
  match alookup x es with Some _ => None | None => Some (ainsert x n es) end.
Fixpoint link_files (l : list (string * (string * bool))) (es : list (string * fnode)) (next : fnode -> program) : program :=
  match l with
  | [] => next (FDir es)
  | (x, (h, e)) :: r =>
      b <- (ReadBlob h) ;
      match b with
      | None => fail
      | Some data =>
          if file_name x then
            match add_file x (FFile e data) es with
            | None => fail
            | Some es' => link_files r es' next
            end
          else fail
      end
  end.

(** ImportFromCASAndSetRoot, distdir_git_map.cpp:76-136. *)
Definition import_from_cas (d : distdir_repo) : program :=
  link_files (distdir_key d) [] (fun n =>
    x <- (Import n) ;
    match x with
    | None => fail
    | Some t =>
        ok <- (Write (AFiles (distdir_key d)) t) ;
        if ok then Ret (Root (Present false t (Gen 0))) else fail
    end).

Fixpoint all_content (l : list archive) (next : program) : program :=
  match l with [] => next | a :: r => content_cas a (all_content r next) end.

(** CreateDistdirGitMap, distdir_git_map.cpp:140-566. *)
Definition distdir_root (d : distdir_repo) : program :=
  let k := distdir_key d in
  b <- (Known 0 (AFiles k)) ;
  if b then
    x <- (ReadKnown 0 (AFiles k)) ;
    match x with
    | None => fail
    | Some t => if d_absent d then ensure_absent (QFiles k) true false t else Ret (Root (Present false t (Gen 0)))
    end
  else
    match memory_tree k with
    | None => fail
    | Some t =>
        let absent := Ret (Root (Absent false t)) in
        if d_absent d then
          if c_serve cfg then
            has <- (ServeHas t) ;
            match has with
            | None => fail
            | Some true => absent
            | Some false =>
                r <- (Serve (QFiles k)) ;
                match r with
                | Found t' _ => if String.eqb t t' then absent else fail
                | Fatal => fail
                | NotFound =>
                    if c_remote cfg then
                      b <- (RemoteHas t) ;
                      if b then
                        ok <- (ServeGet t) ;
                        if ok then absent else fail
                      else
                        b <- (HasCasTree t) ;
                        if b then
                          ok <- (SyncTree t) ;
                          if ok then
                            ok <- (ServeGet t) ;
                            if ok then absent else fail
                          else fail
                        else fail
                    else fail
                end
            end
          else absent
        else
          b <- (HasCasTree t) ;
          if b then import_from_cas d
          else if c_serve cfg && c_remote cfg then
            r <- (Serve (QFiles k)) ;
            match r with
            | Found t' _ => if String.eqb t t' then all_content (d_fetch d) (import_from_cas d) else fail
            | Fatal => fail
            | NotFound => all_content (d_fetch d) (import_from_cas d)
            end
          else all_content (d_fetch d) (import_from_cas d)
    end.

(** CreateForeignFileGitMap, foreign_file_git_map.cpp:40-282. Failing to write the association is only a warning. *)
Definition foreign_root (f : foreign_repo) : program :=
  let k := foreign_key f in
  if f_absent f && negb (c_fetch_absent cfg) then
    match memory_tree k with
    | None => fail
    | Some t =>
        let absent := Ret (Root (Absent false t)) in
        if c_serve cfg then
          has <- (ServeHas t) ;
          match has with
          | None => fail
          | Some true => absent
          | Some false =>
              r <- (Serve (QFiles k)) ;
              match r with
              | Found t' _ => if String.eqb t t' then absent else fail
              | Fatal => fail
              | NotFound => absent
              end
          end
        else absent
    end
  else
    b <- (Known 0 (AFiles k)) ;
    if b then
      x <- (ReadKnown 0 (AFiles k)) ;
      match x with
      | None => fail
      | Some t => Ret (Root (Present false t (Gen 0)))
      end
    else
      content_cas (f_archive f) (
        link_files k [] (fun n =>
          x <- (Import n) ;
          match x with
          | None => fail
          | Some t =>
              _ <- (Write (AFiles k) t) ;
              Ret (Root (Present false t (Gen 0)))
          end)).
End Code.

(** Everything just-mr sets up, with the configuration of that run. *)
Inductive task :=
| TArchive (r : archive_repo)
| TTree (r : tree_repo)
| TCommit (r : commit_repo)
| TDistdir (r : distdir_repo)
| TForeign (r : foreign_repo).
Definition setup (H : string -> string) (job : config * task) : program :=
  match snd job with
  | TArchive r => archive_root H (fst job) r
  | TTree r => tree_root H (fst job) r
  | TCommit r => commit_root (fst job) r
  | TDistdir r => distdir_root H (fst job) r
  | TForeign r => foreign_root H (fst job) r
  end.
