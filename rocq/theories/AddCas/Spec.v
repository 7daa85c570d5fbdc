(** What is to be found in the CAS after adding a directory. *)
From Coq Require Import String Ascii List Bool Arith.
From Verif Require Import Hex.Model Path.Model Path.Spec GitTree.Model.
From Verif Require Symlinks.Spec GitTree.Spec.
From Verif Require Import AddCas.Model.
Import ListNotations.
Local Open Scope string_scope.
Local Open Scope list_scope.

(** The content of a directory as a user sees it. *)
Inductive item : Type :=
| IFile (executable : bool) (data : string)
| ILink (target : string)
| IDir (entries : list (string * item)).

Definition item_type (i : item) : otype :=
  match i with IFile true _ => Executable | IFile false _ => File | ILink _ => Symlink | IDir _ => Tree end.

Section Ids.
  Context (H : string -> string).
  (** The identifier git gives to it (that the content of the tree object has the git format and only
      depends on the set of entries is C19). *)
  Fixpoint git_id (i : item) : string :=
    match i with
    | IFile _ d => blob_id H d
    | ILink c => blob_id H c
    | IDir es => tree_id H (tree_content (map (fun p => match p with (x, c) => (git_id c, [(x, item_type c)]) end) es))
    end.
  Definition dir_text (es : list (string * item)) : string :=
    tree_content (map (fun p => match p with (x, c) => (git_id c, [(x, item_type c)]) end) es).

  (** The CAS has an object: under its identifier a file with just that content is found, or one with
      another content of the same hash. *)
  Definition id_text (t : otype) (d : string) : string := if IsTreeObject t then tree_id H d else blob_id H d.
  Definition has_object (st : state) (t : otype) (d : string) : Prop :=
    exists i n, cas_lookup (t, id_text t d) (cas st) = Some i /\ nth_error (inodes st) i = Some n /\
      (i_data n = d \/ (i_data n <> d /\ id_text t (i_data n) = id_text t d)).
  (** All objects of an item are there. *)
  Fixpoint has_all (st : state) (i : item) : Prop :=
    match i with
    | IFile x d => has_object st (if x then Executable else File) d
    | ILink c => has_object st File c
    | IDir es => has_object st Tree (dir_text es) /\
        fold_right (fun p P => (match p with (_, c) => has_all st c end) /\ P) True es
    end.
  (** Every entry of the CAS has the content its identifier says. *)
  Definition sane (st : state) : Prop :=
    forall t id i, In ((t, id), i) (cas st) ->
      exists n, nth_error (inodes st) i = Some n /\ id_text t (i_data n) = id.
End Ids.

Definition is_lnk (e : entry) : bool := match e with Lnk _ => true | _ => false end.
Definition usual (e : entry) : bool := match e with Reg _ | Dir _ => true | _ => false end.

(** File systems: names are file names other than dot and dot-dot, each once in a directory. *)
Inductive proper : entry -> Prop :=
| proper_reg i : proper (Reg i)
| proper_lnk c : proper (Lnk c)
| proper_special : proper Special
| proper_dir es : NoDup (map fst es) -> (forall f e, In (f, e) es -> plain f /\ GitTree.Spec.valid_name f) ->
    (forall f e, In (f, e) es -> proper e) -> proper (Dir es).

(** Targets that do not lead out of the directory the link is in. *)
Definition downward (c : string) : Prop := exists t, Symlinks.Spec.target_path [] c = Some t.

Section Means.
  Context (ns : list inode) (fs : entry) (root : path) (md : mode).

  (** Where a link in directory [d] points to. With the tree modes it has to stay in the tree; the components
      of the target are taken one by one. In mode [All], above the top of the file system there is only the top. *)
  Fixpoint steps (cur : path) (cs : list string) : path :=
    match cs with
    | [] => cur
    | c :: r =>
        if String.eqb c "" || String.eqb c "." then steps cur r
        else if String.eqb c ".." then steps (removelast cur) r
        else steps (cur ++ [c]) r
    end.
  Definition points_to (d : path) (c : string) (t : path) : Prop :=
    match md with
    | Some All => t = if is_absolute c then steps [] (split_slash c) else steps d (split_slash c)
    | _ => exists r u, d = root ++ r /\ Symlinks.Spec.target_path r c = Some u /\ t = root ++ u
    end.

  (** [leads p q e]: following path [p], going on at the target whenever a link is met, one ends at [e],
      whose own path is [q]. *)
  Inductive leads : path -> path -> entry -> Prop :=
  | leads_top : leads [] [] fs
  | leads_entry p q es f e :
      leads p q (Dir es) -> entry_of f es = Some e -> is_lnk e = false -> leads (p ++ [f]) (q ++ [f]) e
  | leads_link p q es f c t q' e :
      leads p q (Dir es) -> entry_of f es = Some (Lnk c) -> points_to q c t -> leads t q' e ->
      leads (p ++ [f]) q' e.

  (** Links to be kept, and links to be replaced by what they lead to. *)
  Definition kept_link (c : string) : Prop := (md = None \/ md = Some TreeUpwards) /\ downward c.
  Definition replaced_link (c : string) : Prop :=
    (md = Some TreeUpwards /\ ~ downward c) \/ md = Some TreeAll \/ md = Some All.

  (** [means q e i]: [i] is what is to be stored for [e], whose path is [q]. *)
  Inductive means : path -> entry -> item -> Prop :=
  | means_file q i n : nth_error ns i = Some n -> means q (Reg i) (IFile (i_exec n) (i_data n))
  | means_dir q es ms : means_entries q es ms -> means q (Dir es) (IDir ms)
  with means_entries : path -> list (string * entry) -> list (string * item) -> Prop :=
  | means_nil q : means_entries q [] []
  | means_usual q f e m es ms : usual e = true -> means (q ++ [f]) e m -> means_entries q es ms ->
      means_entries q ((f, e) :: es) ((f, m) :: ms)
  | means_ignored q f e es ms : md = Some Ignore -> usual e = false -> means_entries q es ms ->
      means_entries q ((f, e) :: es) ms
  | means_kept q f c es ms : kept_link c -> means_entries q es ms ->
      means_entries q ((f, Lnk c) :: es) ((f, ILink c) :: ms)
  | means_replaced q f c t q' e m es ms : replaced_link c -> points_to q c t -> leads t q' e -> usual e = true ->
      means q' e m -> means_entries q es ms -> means_entries q ((f, Lnk c) :: es) ((f, m) :: ms).

  (** The paths links point to do not go through other links. *)
  Definition straight : Prop :=
    forall d f c t a b c', at_path fs (d ++ [f]) = Some (Lnk c) -> points_to d c t ->
      t = a ++ b -> b <> [] -> at_path fs a <> Some (Lnk c').
End Means.

(** ** The default: the directory as it is

    Files with their content and executable bit, links not leading out of their directory, directories with
    all their entries. *)
Inductive as_is (ns : list inode) : entry -> item -> Prop :=
| as_file i n : nth_error ns i = Some n -> as_is ns (Reg i) (IFile (i_exec n) (i_data n))
| as_link c : downward c -> as_is ns (Lnk c) (ILink c)
| as_dir es ms : Forall2 (fun e m => fst e = fst m /\ as_is ns (snd e) (snd m)) es ms -> as_is ns (Dir es) (IDir ms).

(** ** Ignoring: only the files and directories *)
Inductive files_only (ns : list inode) : entry -> item -> Prop :=
| only_file i n : nth_error ns i = Some n -> files_only ns (Reg i) (IFile (i_exec n) (i_data n))
| only_dir es ms : Forall2 (fun e m => fst e = fst m /\ files_only ns (snd e) (snd m))
                     (filter (fun e => usual (snd e)) es) ms -> files_only ns (Dir es) (IDir ms).

(** ** Looking into items *)
Fixpoint named (f : string) (ms : list (string * item)) : option item :=
  match ms with
  | [] => None
  | (g, m) :: r => if String.eqb g f then Some m else named f r
  end.
Fixpoint item_at (m : item) (p : path) : option item :=
  match p with
  | [] => Some m
  | f :: r => match m with IDir ms => match named f ms with Some k => item_at k r | None => None end | _ => None end
  end.
Inductive proper_item : item -> Prop :=
| proper_file x d : proper_item (IFile x d)
| proper_link c : proper_item (ILink c)
| proper_idir ms : NoDup (map fst ms) -> (forall f m, In (f, m) ms -> GitTree.Spec.valid_name f) ->
    (forall f m, In (f, m) ms -> proper_item m) -> proper_item (IDir ms).
(** The endpoint has all trees of an item. *)
Definition serves (H : string -> string) (retrieve : string -> option string) (m : item) : Prop :=
  forall p ms, item_at m p = Some (IDir ms) -> retrieve (ToHexString (git_id H (IDir ms))) = Some (dir_text H ms).
