(** Model of [just add-to-cas] and of [just install-cas --path]: src/buildtool/main/add_to_cas.cpp,
    src/buildtool/execution_api/utils/subobject.cpp, and of the part of src/buildtool/file_system/
    {object_cas,file_storage,file_system_manager}.hpp that puts files into the local CAS.

    Simplifications. Paths are normalised absolute paths, given by their components; that is what
    [ToNormalPath(std::filesystem::absolute(..))] makes of them (C14-C16). The code uses relative paths as
    keys; relative to a fixed root they correspond to absolute ones. One process works on the directory.
    The hash function is the one of native mode; in compatible mode trees are refused
    (add_to_cas.cpp:377-382). The upload to a remote endpoint afterwards (add_to_cas.cpp:421-427) is C50-C54. *)
From Coq Require Import String Ascii List Bool Arith.
From Verif Require Import Hex.Model Path.Model GitTree.Model.
Import ListNotations.
Local Open Scope string_scope.
Local Open Scope list_scope.
Local Open Scope nat_scope.

(** A file system: regular files refer to inodes; [Special] is anything that is neither file, directory
    nor symlink. *)
Inductive entry : Type :=
| Reg (ino : nat)
| Lnk (target : string)
| Special
| Dir (entries : list (string * entry)).
Record inode := mkIno { i_exec : bool; i_writable : bool; i_epoch : bool; i_data : string }.
Definition path := list string.

(** The inodes, and the entries of the local CAS: object type and identifier, and the inode of the file. *)
Record state := mkSt { inodes : list inode; cas : list ((otype * string) * nat) }.

(** resolve_special.hpp:26-36; none: the default of the command. *)
Inductive special := Ignore | TreeUpwards | TreeAll | All.
Definition special_eqb (a b : special) : bool :=
  match a, b with
  | Ignore, Ignore | TreeUpwards, TreeUpwards | TreeAll, TreeAll | All, All => true | _, _ => false end.
Definition mode := option special.
Definition is_mode (m : mode) (s : special) : bool := match m with Some x => special_eqb x s | None => false end.

Fixpoint path_eqb (a b : path) : bool :=
  match a, b with
  | [], [] => true
  | x :: a', y :: b' => String.eqb x y && path_eqb a' b'
  | _, _ => false
  end.
Definition mem (p : path) (l : list path) : bool := existsb (path_eqb p) l.

(** ** What the operating system finds at a path *)
Fixpoint entry_of (f : string) (es : list (string * entry)) : option entry :=
  match es with
  | [] => None
  | (g, e) :: r => if String.eqb g f then Some e else entry_of f r
  end.
Fixpoint at_path (e : entry) (p : path) : option entry :=
  match p with
  | [] => Some e
  | c :: r => match e with
              | Dir es => match entry_of c es with Some x => at_path x r | None => None end
              | _ => None
              end
  end.

(** Path resolution: links are followed except for the last component; [limit] bounds its work
    (ELOOP, ENAMETOOLONG). *)
Fixpoint os (limit : nat) (fs : entry) (cur cs : path) : option entry :=
  match limit with
  | O => None
  | S l =>
      match cs with
      | [] => at_path fs cur
      | c :: r =>
          match at_path fs cur with
          | Some (Dir es) =>
              if String.eqb c "" || String.eqb c "." then os l fs cur r
              else if String.eqb c ".." then os l fs (removelast cur) r
              else match entry_of c es with
                   | None => None
                   | Some (Lnk t) =>
                       match r with
                       | [] => Some (Lnk t)
                       | _ => os l fs (if is_absolute t then [] else cur) (split_slash t ++ r)
                       end
                   | Some _ => os l fs (cur ++ [c]) r
                   end
          | _ => None
          end
      end
  end.

(** ** Storing objects *)
Section Store.
  Context (H : string -> string).

  (** [HashFunction::HashBlobData] and [HashTreeData] of native mode, hash_function.hpp:40-75. *)
  Definition object_id (t : otype) (bytes : string) : string :=
    if IsTreeObject t then tree_id H bytes else blob_id H bytes.

  Fixpoint cas_lookup (k : otype * string) (c : list ((otype * string) * nat)) : option nat :=
    match c with
    | [] => None
    | (k', i) :: r => if otype_eqb (fst k') (fst k) && String.eqb (snd k') (snd k) then Some i else cas_lookup k r
    end.

  Fixpoint set_nth {A} (i : nat) (x : A) (l : list A) : list A :=
    match i, l with
    | _, [] => []
    | O, _ :: r => x :: r
    | S j, y :: r => y :: set_nth j x r
    end.

  (** [ObjectCAS::StoreBlob] (object_cas.hpp:163-178) for bytes: [AtomicAddFromBytes]
      (file_storage.hpp:140-160) writes a new file. *)
  Definition store_bytes (t : otype) (bytes : string) (st : state) : state * string :=
    let id := object_id t bytes in
    match cas_lookup (t, id) (cas st) with
    | Some _ => (st, id)
    | None => (mkSt (inodes st ++ [mkIno (IsExecutableObject t) false true bytes])
                    (((t, id), List.length (inodes st)) :: cas st), id)
    end.

  (** [ObjectCAS::StoreBlob] for a path; not owner: [create_and_stage] of [AtomicAddFromFile]
      (file_storage.hpp:101-138) copies the file. *)
  Definition store_copy (t : otype) (ino : nat) (st : state) : state * option string :=
    match nth_error (inodes st) ino with
    | Some n => let (st', id) := store_bytes t (i_data n) st in (st', Some id)
    | None => (st, None)
    end.

  (** The same as owner: [create_directly] sets the permissions and the time of the file it was given and
      makes a hard link (file_system_manager.hpp:258-270); there is no copy if this fails, as it does when
      the file is on another file system. *)
  Definition store_link (same_fs : bool) (t : otype) (ino : nat) (st : state) : state * option string :=
    match nth_error (inodes st) ino with
    | Some n =>
        let id := object_id t (i_data n) in
        match cas_lookup (t, id) (cas st) with
        | Some _ => (st, Some id)
        | None =>
            let ns := set_nth ino (mkIno (IsExecutableObject t) false true (i_data n)) (inodes st) in
            if same_fs then (mkSt ns (((t, id), ino) :: cas st), Some id) else (mkSt ns (cas st), None)
        end
    | None => (st, None)
    end.
End Store.

(** ** Importing a directory: [CASTreeImporter], add_to_cas.cpp:51-343 *)

(** [ToNormalPath(full.parent_path() / content)], add_to_cas.cpp:239-240. *)
Definition norm_step (acc : path) (c : string) : path :=
  if String.eqb c "" || String.eqb c "." then acc
  else if String.eqb c ".." then removelast acc else acc ++ [c].
Definition norm_target (p : path) (content : string) : path :=
  fold_left norm_step (split_slash content) (if is_absolute content then [] else removelast p).

(** [full_path.lexically_relative(root_)], add_to_cas.cpp:241-242. *)
Definition rel_to (root p : path) : string :=
  let '(p', b) := mismatch p root in
  match (repeat ".." (List.length b) ++ p')%list with nil => "." | cs => join_slash cs end.

Definition known_paths := list (path * (string * otype)).
Fixpoint find_known (p : path) (k : known_paths) : option (string * otype) :=
  match k with
  | [] => None
  | (q, v) :: r => if path_eqb q p then Some v else find_known p r
  end.
(** [std::unordered_map::emplace]. *)
Definition emplace (p : path) (v : string * otype) (k : known_paths) : known_paths :=
  match find_known p k with Some _ => k | None => (p, v) :: k end.

Section Import.
  Context (H : string -> string) (fs : entry) (limit : nat) (same_fs : bool) (root : path) (md : mode).

  Definition lookup (p : path) : option entry := os limit fs [] p.

  (** The loop following a link, add_to_cas.cpp:215-262; [Type] of file_system_manager.hpp:646-681 fails for
      special files. *)
  Fixpoint follow (fuel : nat) (p : path) (content : string) (visited : list path) : option (path * entry) :=
    match fuel with
    | O => None
    | S n =>
        if (is_mode md TreeUpwards || is_mode md TreeAll) && negb (PathIsConfined content (rel_to root p)) then None
        else
          let p' := norm_target p content in
          match lookup p' with
          | None | Some Special => None
          | Some e =>
              if mem p' visited then None
              else match e with
                   | Lnk content' => follow n p' content' (p' :: visited)
                   | _ => Some (p', e)
                   end
          end
    end.

  Definition outcome : Type := state * known_paths * option tree_entries.

  (** Processing a file or a tree under a name, add_to_cas.cpp:264-318. [rec] imports a directory. *)
  Definition process (rec : state -> known_paths -> path -> state * known_paths * option string)
      (st : state) (known : known_paths) (acc : tree_entries) (name : string) (orig p : path) (e : entry) : outcome :=
    match e with
    | Dir _ =>
        match rec st known p with
        | (st', known', Some id) =>
            (st', emplace orig (id, Tree) (emplace p (id, Tree) known'), Some (emplace_back id (name, Tree) acc))
        | (st', known', None) => (st', known', None)
        end
    | Reg i =>
        match nth_error (inodes st) i with
        | None => (st, known, None)
        | Some n =>
            let t := if i_exec n then Executable else File in
            match store_link H same_fs t i st with
            | (st', Some id) =>
                (st', emplace orig (id, t) (emplace p (id, t) known), Some (emplace_back id (name, t) acc))
            | (st', None) => (st', known, None)
            end
        end
    | _ => (st, known, None)
    end.

  (** [dir_reader] on an entry of the directory, add_to_cas.cpp:124-326, with the types
      [FileSystemManager::ReadDirectory] gives (file_system_manager.hpp:742-803). *)
  Definition read_entry (rec : state -> known_paths -> path -> state * known_paths * option string) (fuel : nat)
      (dir : path) (st : state) (known : known_paths) (acc : tree_entries) (name : string) (e : entry) : outcome :=
    let p := dir ++ [name] in
    let cached k := match find_known p known with
                    | Some (id, t) => (st, known, Some (emplace_back id (name, t) acc))
                    | None => k
                    end in
    match e with
    | Reg _ | Dir _ => cached (process rec st known acc name p p e)
    | Special => if is_mode md Ignore then (st, known, Some acc) else (st, known, None)
    | Lnk content =>
        if is_mode md Ignore then (st, known, Some acc)
        else cached
          (if (match md with None => true | Some _ => false end || is_mode md TreeUpwards) && PathIsNonUpwards content then
             let (st', id) := store_bytes H File content st in
             (st', emplace p (id, Symlink) known, Some (emplace_back id (name, Symlink) acc))
           else match md with
                | None => (st, known, None)
                | Some _ =>
                    match follow fuel p content [p] with
                    | None => (st, known, None)
                    | Some (p', e') => process rec st known acc name p p' e'
                    end
                end)
    end.

  Fixpoint read_dir (rec : state -> known_paths -> path -> state * known_paths * option string) (fuel : nat)
      (dir : path) (st : state) (known : known_paths) (acc : tree_entries) (es : list (string * entry)) : outcome :=
    match es with
    | [] => (st, known, Some acc)
    | (name, e) :: r =>
        match read_entry rec fuel dir st known acc name e with
        | (st', known', Some acc') => read_dir rec fuel dir st' known' acc' r
        | (st', known', None) => (st', known', None)
        end
    end.

  (** [CreateGitTreeDigest], add_to_cas.cpp:95-342. *)
  Fixpoint create (fuel : nat) (stack : list path) (st : state) (known : known_paths) (dir : path)
    : state * known_paths * option string :=
    match fuel with
    | O => (st, known, None)
    | S n =>
        match lookup dir with
        | Some (Dir es) =>
            if mem dir stack then (st, known, None)
            else match read_dir (create n (dir :: stack)) n dir st known [] es with
                 | (st', known', Some acc) =>
                     let (st'', id) := store_bytes H Tree (tree_content acc) st' in (st'', known', Some id)
                 | (st', known', None) => (st', known', None)
                 end
        | _ => (st, known, None)
        end
    end.
End Import.

(** [AddArtifactsToCas], add_to_cas.cpp:346-430, up to printing the identifier; [location] is the path given,
    or what it resolves to if links at the location are to be followed. *)
Definition add_to_cas (H : string -> string) (fuel : nat) (fs : entry) (limit : nat) (same_fs : bool)
    (md : mode) (location : path) (st : state) : state * option string :=
  match os limit fs [] location with
  | Some (Reg i) =>
      match nth_error (inodes st) i with
      | Some n => let (st', id) := store_copy H (if i_exec n then Executable else File) i st in
                  (st', option_map ToHexString id)
      | None => (st, None)
      end
  | Some (Lnk c) => let (st', id) := store_bytes H File c st in (st', Some (ToHexString id))
  | Some (Dir _) =>
      match create H fs limit same_fs location md fuel [] st [] location with
      | (st', _, id) => (st', option_map ToHexString id)
      end
  | _ => (st, None)
  end.

(** ** [RetrieveSubPathId], subobject.cpp:34-125 (native mode)

    [retrieve] is the content the remote CAS has for a tree. A segment that is not found ends the loop with
    a warning; what was reached so far is the result. *)
Section SubPath.
  Context (H : string -> string) (retrieve : string -> option string).

  (** [TreeReaderUtils::ReadObjectInfos] of the entries of a git tree, tree_reader_utils.cpp:125-153: all of them
      in the order of the hash map, with their types. *)
  Definition ReadObjectInfos (g : tree_entries) : list (string * (string * otype)) :=
    flat_map (fun g => map (fun e => (fst e, (ToHexString (fst g), snd e))) (snd g)) g.
  (** The callback remembers the entry with the name of the segment. *)
  Fixpoint find_entry (name : string) (es : list (string * (string * otype))) (sofar : option (string * otype))
    : option (string * otype) :=
    match es with
    | [] => sofar
    | (n, i) :: r => find_entry name r (if String.eqb n name then Some i else sofar)
    end.
  Fixpoint RetrieveSubPathId (i : string * otype) (segments : path) : option (string * otype) :=
    match segments with
    | [] => Some i
    | s :: r =>
        if negb (IsTreeObject (snd i)) then Some i
        else match retrieve (fst i) with
             | None => None
             | Some data =>
                 match ReadTreeData H (fun _ => true) data (fst i) with
                 | None => Some i
                 | Some g => match find_entry s (ReadObjectInfos g) None with
                             | None => Some i
                             | Some j => RetrieveSubPathId j r
                             end
                 end
             end
    end.
End SubPath.
