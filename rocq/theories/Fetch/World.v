(** Where just-mr keeps what it has fetched, and the operations it uses.

    A generation of the repository storage is one directory with a Git repository and the files that associate the
    description of a repository with the tree of its root (src/buildtool/storage/fs_utils.cpp,
    src/buildtool/storage/repository_garbage_collector.cpp). Besides there are the local CAS and, for Git repositories,
    possibly a local checkout.

    A Git object database is described by directories (with everything in them) and commits. Initialising the Git cache
    (ENSURE_INIT) and opening repositories are left out, as is the fake repository opened for locking: they change
    nothing modelled here, and their failure is an error of the program. *)
From Coq Require Import String Ascii List Bool NArith Arith.
From Verif Require Import Common.Strs Hex.Model Describe.Model Executor.Wire Rehash.Directory Rehash.DirectoryProofs.
From Verif Require Import GitTree.Model GitTree.Spec GitTree.Ids TreeOps.Spec Rehash.Model Rehash.Spec.
Import ListNotations.
Local Open Scope string_scope.
Local Open Scope list_scope.
Local Open Scope nat_scope.

(** [PragmaSpecial], src/buildtool/file_system/symlinks/pragma_special.hpp:24-29. *)
Inductive pragma := Ignore | ResolvePartially | ResolveCompletely.

(** The association files, fs_utils.cpp:87-148: of an archive by type and content hash, of a resolved tree by the
    pragma and the id of the tree, of a commit, and of a directory of files (distdir or foreign file), given by names,
    content hashes and whether they are executable. Simplification: for the last kind the code takes the hash of the
    JSON serialisation of these (see C43) instead of the list, and has one directory for distdirs and one for foreign
    files. *)
Inductive akey :=
| AArchive (type content : string)
| AResolved (p : pragma) (tree : string)
| ACommit (commit : string)
| AFiles (entries : list (string * (string * bool))).
Definition akey_dec (a b : akey) : {a = b} + {a <> b}.
Proof. repeat decide equality. Defined.
Definition key_eqb (a b : akey) : bool := if akey_dec a b then true else false.

(** A Git object database: directories and commits; blobs are the files and links in the directories. *)
Record odb := mkOdb { o_dirs : list fnode; o_commits : list string }.
Definition odb_join (a b : odb) : odb := mkOdb (o_dirs a ++ o_dirs b) (o_commits a ++ o_commits b).
Definition no_odb : odb := mkOdb [] [].

Record generation := mkGen { g_odb : odb; g_assoc : list (akey * string) }.
Definition no_gen : generation := mkGen no_odb [].

(** [w_noted]: native hashes with the hash noted for them in the compatible storage (rehash_utils.cpp:103-121). *)
Record world := mkWorld {
  w_gens : list generation;
  w_cas : list string;
  w_trees : list fnode;
  w_checkout : odb;
  w_noted : list (string * string)
}.

(** One of the Git repositories: of a generation, or the checkout. *)
Inductive loc := Gen (g : nat) | Checkout.
Definition gen_at (w : world) (g : nat) : generation := nth g (w_gens w) no_gen.
Definition odb_at (w : world) (l : loc) : odb := match l with Gen g => g_odb (gen_at w g) | Checkout => w_checkout w end.
Definition place_eqb (a b : loc) : bool :=
  match a, b with Gen g, Gen g' => Nat.eqb g g' | Checkout, Checkout => true | _, _ => false end.

(** Additions. The youngest generation has index 0. *)
Definition set_young (f : generation -> generation) (w : world) : world :=
  mkWorld (match w_gens w with [] => [] | g :: r => f g :: r end) (w_cas w) (w_trees w) (w_checkout w) (w_noted w).
Definition add_odb (l : loc) (o : odb) (w : world) : world :=
  match l with
  | Gen _ => set_young (fun g => mkGen (odb_join o (g_odb g)) (g_assoc g)) w
  | Checkout => mkWorld (w_gens w) (w_cas w) (w_trees w) (odb_join o (w_checkout w)) (w_noted w)
  end.
Definition add_dirs (ds : list fnode) (w : world) : world := add_odb (Gen 0) (mkOdb ds []) w.
Definition add_assoc (k : akey) (t : string) (w : world) : world := set_young (fun g => mkGen (g_odb g) ((k, t) :: g_assoc g)) w.
Definition add_cas (l : list string) (w : world) : world := mkWorld (w_gens w) (l ++ w_cas w) (w_trees w) (w_checkout w) (w_noted w).
Definition add_trees (l : list fnode) (w : world) : world := mkWorld (w_gens w) (w_cas w) (l ++ w_trees w) (w_checkout w) (w_noted w).
Definition add_noted (p : string * string) (w : world) : world := mkWorld (w_gens w) (w_cas w) (w_trees w) (w_checkout w) (p :: w_noted w).

(** The file at an association: the one written last. *)
Fixpoint known (k : akey) (l : list (akey * string)) : option string :=
  match l with
  | [] => None
  | (k', t) :: r => if key_eqb k k' then Some t else known k r
  end.

(** What is at a path in a directory. *)
Fixpoint at_path (n : fnode) (p : list string) {struct p} : option fnode :=
  match p, n with
  | [], _ => Some n
  | x :: q, FDir es => match alookup x es with Some c => at_path c q | None => None end
  | _ :: _, _ => None
  end.

(** A directory after it has been installed from the CAS into an empty directory: only the directories needed for
    files and links are created (C94). *)
Definition hollow_dir (n : fnode) : bool := match n with FDir [] => true | _ => false end.
Fixpoint installed_dir (n : fnode) : fnode :=
  match n with
  | FDir es => FDir (filter (fun p => negb (hollow_dir (snd p))) (map (fun p => match p with (x, c) => (x, installed_dir c) end) es))
  | _ => n
  end.

(** The tree named in a commit object: the first line is [tree] and the id. *)
Definition commit_tree (bytes : string) : option string :=
  if String.prefix "tree " bytes then Some (substring 5 40 bytes) else None.

(** A digest given by the serve endpoint. *)
Inductive served := Native (h : string) | Compatible (h : string).
Definition served_hash (d : served) : string := match d with Native h => h | Compatible h => h end.
(** [SourceTreeClient::result_t]: a tree (and its digest in the remote CAS), or the error. *)
Inductive lookup := Found (tree : string) (d : option served) | NotFound | Fatal.

(** What can be asked from the serve endpoint. *)
Inductive query :=
| QCommit (commit : string) (subdir : list string)
| QArchive (type content : string) (subdir : list string) (p : option pragma)
| QFiles (entries : list (string * (string * bool))).

(** The operations. All of those on the storage are atomic: files are renamed into place, Git objects are written by
    libgit2, which does the same. *)
Inductive op : Type -> Type :=
| HasBlob (h : string) : op bool                                  (* IsAvailable, BlobPath *)
| ReadBlob (h : string) : op (option string)                      (* BlobPath and reading the file *)
| StoreBlob (data : string) : op bool                             (* LocalCAS::StoreBlob, AddToCAS *)
| HasCasTree (h : string) : op bool                               (* IsAvailable, for a tree *)
| InstallTree (d : served) : op (option fnode)                    (* RetrieveToPaths into a temporary directory *)
| GitBlob (g : nat) (h : string) : op (option (option string))    (* TryReadBlob; [None] on error *)
| HasTree (l : loc) (t : string) : op (option bool)               (* CheckTreeExists *)
| HasCommit (l : loc) (c : string) : op (option bool)             (* CheckCommitExists *)
| TreeEntry (l : loc) (t : string) (p : list string) : op (option string)    (* GetSubtreeFromTree *)
| CommitEntry (l : loc) (c : string) (p : list string) : op (option string)  (* GetSubtreeFromCommit *)
| Known (g : nat) (k : akey) : op bool                            (* the association file exists *)
| ReadKnown (g : nat) (k : akey) : op (option string)             (* reading it *)
| Write (k : akey) (t : string) : op bool                         (* WriteTreeIDFile *)
| KeepTree (g : nat) (t : string) : op bool                       (* KEEP_TREE *)
| KeepTag (l : loc) (c : string) : op bool                        (* KEEP_TAG *)
| TakeTree (g : nat) (t : string) : op bool                       (* LocalFetchViaTmpRepo of a tagged tree *)
| TakeCommit (g : nat) (c : string) (l : loc) : op bool           (* LocalFetchViaTmpRepo of a tagged commit *)
| Import (n : fnode) : op (option string)                         (* ImportToGitMap *)
| Resolve (p : pragma) (t : string) : op (option string)          (* ResolveSymlinksMap *)
| Note (native noted : string) : op bool                          (* StoreRehashedDigest *)
| Extract (type data : string) : op (option fnode)                (* ExtractArchive into a temporary directory *)
| Distdirs : op unit                                              (* AddDistfileToCAS *)
| Download : op (option string)                                   (* NetworkFetchWithMirrors *)
| FetchGit (l : loc) : op bool                                    (* FetchViaTmpRepo from the mirrors, in order *)
| RunCommand : op (option fnode)                                  (* the command of a git tree repository *)
| RemoteBlob (d : served) : op bool                               (* remote_api->RetrieveToCas to the local CAS *)
| CompatBlob (h : string) : op (option string)                    (* reading from the compatible CAS *)
| RemoteTree (d : served) : op bool                               (* remote_api->RetrieveToCas of a tree *)
| ServeContent (h : string) : op (option served)                  (* ContentInRemoteCAS *)
| ServeTree (h : string) : op (option served)                     (* TreeInRemoteCAS *)
| Serve (q : query) : op lookup                                   (* RetrieveTreeFrom... *)
| ServeHas (t : string) : op (option bool)                        (* CheckRootTree *)
| Upload (t : string) : op bool                                   (* UploadTree *)
| RemoteHas (t : string) : op bool                                (* remote_api->IsAvailable *)
| ServeGet (t : string) : op bool                                 (* GetTreeFromRemote *)
| SyncTree (t : string) : op bool.                                (* local_api->RetrieveToCas to the remote *)

(** Programs: the operations one after the other, depending on their results. *)
Inductive prog (A : Type) : Type :=
| Ret (a : A)
| Do (X : Type) (o : op X) (k : X -> prog A).
Arguments Ret {A}. Arguments Do {A X}.

Section Semantics.
(** The hash function (raw bytes). *)
Variable H : string -> string.
(** Extracting an archive of a type, with libarchive; C47-C49 are about what it is used for. *)
Variable extract : string -> string -> option fnode.
(** Resolving the links in a directory (C70-C74). *)
Variable resolve : pragma -> fnode -> option fnode.
(** What the serve endpoint answers when asked for the tree of a repository. *)
Variable serve_says : query -> string -> Prop.

Definition blob_hash (data : string) : string := ToHexString (blob_id H data).
Definition commit_text (d : string) : string := ("commit " ++ Expr.Eval.dec (N.of_nat (String.length d)) ++ NUL ++ d)%string.
Definition commit_id (d : string) : string := ToHexString (H (commit_text d)).

(** The object database has this directory, or this blob. *)
Definition has_node (o : odb) (n : fnode) : Prop := exists d, In d (o_dirs o) /\ In n (parts d).
Definition has_dir (o : odb) (n : fnode) : Prop := has_node o n /\ is_dir n = true.
Definition has_tree (o : odb) (t : string) : Prop := exists n, has_dir o n /\ git_hash H n = t.
Definition has_commit (o : odb) (c : string) : Prop := exists b, In b (o_commits o) /\ commit_id b = c.
Definition has_blob (o : odb) (h data : string) : Prop :=
  exists n, has_node o n /\ is_dir n = false /\ git_hash H n = h /\ git_data H n = data.
(** With a commit there is its tree. *)
Definition whole (o : odb) : Prop := forall b, In b (o_commits o) -> exists t, commit_tree b = Some t /\ has_tree o t.

(** The entry of a tree: if it is asked for the tree itself, its id is returned without looking at the database,
    git_repo.cpp:1061-1140; otherwise the type of the entry is not looked at. *)
Definition entry_of (o : odb) (t : string) (p : list string) (r : option string) : Prop :=
  match p, r with
  | [], Some r => r = t
  | [], None => False
  | _, Some r => exists n m, has_dir o n /\ git_hash H n = t /\ at_path n p = Some m /\ r = git_hash H m
  | _, None => ~ exists n m, has_dir o n /\ git_hash H n = t /\ at_path n p = Some m
  end.

(** What an operation does: [spec o w x w'] if, in [w], it can give [x] and leave [w'].

    A digest of the compatible protocol never has the hash of a Git object: the lengths are checked when it is created
    (artifact_digest_factory.cpp).

    Reads give what is there; where the storage can fail to be read, that is a possible result as well. Everything
    coming from outside (the network, distdirs, mirrors, the remote CAS) can be anything. *)
Definition spec {X : Type} (o : op X) : world -> X -> world -> Prop :=
  match o in op X return world -> X -> world -> Prop with
  | HasBlob h => fun w b w' => w' = w /\ (b = true <-> exists data, In data (w_cas w) /\ blob_hash data = h)
  | ReadBlob h => fun w r w' => w' = w /\
      match r with
      | Some data => In data (w_cas w) /\ blob_hash data = h
      | None => ~ exists data, In data (w_cas w) /\ blob_hash data = h
      end
  | StoreBlob data => fun w b w' => if b : bool then w' = add_cas [data] w else w' = w
  | HasCasTree h => fun w b w' => w' = w /\ (b = true -> exists n, In n (w_trees w) /\ is_dir n = true /\ git_hash H n = h)
  | InstallTree d => fun w r w' => w' = w /\
      match r, d with
      | None, _ => True
      | Some n', Native h => exists n, In n (w_trees w) /\ is_dir n = true /\ git_hash H n = h /\ n' = installed_dir n
      | Some n', Compatible _ => is_dir n' = true
      end
  | GitBlob g h => fun w r w' => w' = w /\
      match r with
      | Some (Some data) => has_blob (odb_at w (Gen g)) h data
      | Some None => ~ exists data, has_blob (odb_at w (Gen g)) h data
      | None => True
      end
  | HasTree l t => fun w r w' => w' = w /\
      match r with Some b => b = true <-> has_tree (odb_at w l) t | None => True end
  | HasCommit l c => fun w r w' => w' = w /\
      match r with Some b => b = true <-> has_commit (odb_at w l) c | None => True end
  | TreeEntry l t p => fun w r w' => w' = w /\ entry_of (odb_at w l) t p r
  | CommitEntry l c p => fun w r w' => w' = w /\
      match r with
      | Some r => exists b t, In b (o_commits (odb_at w l)) /\ commit_id b = c /\ commit_tree b = Some t /\
                              entry_of (odb_at w l) t p (Some r)
      | None => True
      end
  | Known g k => fun w b w' => w' = w /\ (b = true <-> known k (g_assoc (gen_at w g)) <> None)
  | ReadKnown g k => fun w r w' => w' = w /\ r = known k (g_assoc (gen_at w g))
  | Write k t => fun w b w' => if b : bool then w' = add_assoc k t w else w' = w
  | KeepTree g t => fun w b w' => w' = w /\ (b = true -> has_tree (odb_at w (Gen g)) t)
  | KeepTag l c => fun w b w' => w' = w
  | TakeTree g t => fun w b w' =>
      exists ds, (forall n, In n ds -> has_node (odb_at w (Gen g)) n) /\ w' = add_dirs ds w /\
      (b = true -> forall n, has_dir (odb_at w (Gen g)) n -> git_hash H n = t -> In n ds)
  | TakeCommit g c l => fun w b w' =>
      exists o, whole o /\ w' = add_odb l o w /\ incl (o_commits o) (o_commits (odb_at w (Gen g))) /\
      (forall n, In n (o_dirs o) -> has_node (odb_at w (Gen g)) n) /\ (b = true -> has_commit o c)
  | Import n => fun w r w' =>
      match r with
      | Some t => t = git_hash H n /\ is_dir n = true /\ w' = add_dirs [n] w
      | None => exists ds, incl ds (parts n) /\ w' = add_dirs ds w
      end
  | Resolve p t => fun w r w' =>
      exists ds, w' = add_dirs ds w /\
      match r with
      | Some r => exists n m, has_dir (odb_at w (Gen 0)) n /\ git_hash H n = t /\ resolve p n = Some m /\ is_dir m = true /\
                              In m ds /\ r = git_hash H m
      | None => True
      end
  | Note a b => fun w ok w' => if ok : bool then w' = add_noted (a, b) w else w' = w
  | Extract ty data => fun w r w' => w' = w /\ match r with Some n => extract ty data = Some n /\ is_dir n = true | None => True end
  | Distdirs => fun w _ w' => exists l, w' = add_cas l w
  | Download => fun w _ w' => w' = w
  | FetchGit l => fun w _ w' => exists o, whole o /\ w' = add_odb l o w
  | RunCommand => fun w r w' => w' = w /\ match r with Some n => is_dir n = true | None => True end
  | RemoteBlob d => fun w b w' =>
      exists l, w' = add_cas l w /\
      match d with
      | Native h => b = true -> exists data, In data (w_cas w') /\ blob_hash data = h
      | Compatible _ => l = []
      end
  | CompatBlob h => fun w _ w' => w' = w
  | RemoteTree d => fun w b w' =>
      exists l, w' = add_trees l w /\
      match d with
      | Native h => b = true -> exists n, In n (w_trees w') /\ is_dir n = true /\ git_hash H n = h
      | Compatible _ => l = []
      end
  | ServeContent h => fun w r w' => w' = w /\ match r with Some (Compatible h') => h' <> h | _ => True end
  | ServeTree h => fun w _ w' => w' = w
  | Serve q => fun w r w' => w' = w /\ match r with Found t _ => serve_says q t | _ => True end
  | ServeHas t => fun w _ w' => w' = w
  | Upload t => fun w _ w' => w' = w
  | RemoteHas t => fun w _ w' => w' = w
  | ServeGet t => fun w _ w' => w' = w
  | SyncTree t => fun w _ w' => w' = w
  end.

(** ** Histories *)

(** Between runs, under an exclusive lock, generations are rotated: RepositoryGarbageCollector::TriggerGarbageCollection,
    repository_garbage_collector.cpp:41-150, renames them one by one, starting with the oldest, so that a crash leaves
    a gap; the oldest one, or all but the youngest, are removed. *)
Definition rename_gen (i : nat) (gs : list generation) : list generation :=
  firstn i gs ++ no_gen :: nth i gs no_gen :: skipn (i + 2) gs.
Definition remove_gen (i : nat) (gs : list generation) : list generation := firstn i gs ++ no_gen :: skipn (i + 1) gs.
(** Meanwhile the CAS may lose anything (its own garbage collection), and anything may happen to the checkout, which
    belongs to the user, as long as it stays a valid repository. *)
Inductive between : world -> world -> Prop :=
| B_rename w i : S i < List.length (w_gens w) ->
    between w (mkWorld (rename_gen i (w_gens w)) (w_cas w) (w_trees w) (w_checkout w) (w_noted w))
| B_remove w i : i < List.length (w_gens w) -> between w (mkWorld (remove_gen i (w_gens w)) (w_cas w) (w_trees w) (w_checkout w) (w_noted w))
| B_cas w cas trees : incl cas (w_cas w) -> incl trees (w_trees w) ->
    between w (mkWorld (w_gens w) cas trees (w_checkout w) (w_noted w))
| B_checkout w o : whole o -> between w (mkWorld (w_gens w) (w_cas w) (w_trees w) o (w_noted w)).

(** At the beginning everything is empty; there are [n] generations, at least one (config.hpp:206-216). *)
Definition fresh (n : nat) : world := mkWorld (repeat no_gen n) [] [] no_odb [].

(** All that can happen, for jobs [T] done by programs. *)
Section Runs.
Variables T A : Type.
Variable code : T -> prog A.
Inductive reach : world -> list (T * prog A) -> Prop :=
| R_fresh n : 1 <= n -> reach (fresh n) []
| R_start w rs t : reach w rs -> reach w ((t, code t) :: rs)
| R_step w rs1 rs2 t X (o : op X) k x w' :
    reach w (rs1 ++ (t, Do o k) :: rs2) -> spec o w x w' -> reach w' (rs1 ++ (t, k x) :: rs2)
| R_stop w rs1 rs2 r : reach w (rs1 ++ r :: rs2) -> reach w (rs1 ++ rs2)
| R_between w w' : reach w [] -> between w w' -> reach w' [].
End Runs.
End Semantics.
