(** What symbolic links mean: following paths in a tree. *)
From Coq Require Import String Ascii List Bool.
From Verif Require Import Path.Model Path.Spec Symlinks.Model.
Import ListNotations.
Local Open Scope string_scope.
Local Open Scope list_scope.

(** Trees as git has them: entries have names that are single path components, each name once. *)
Inductive proper : node -> Prop :=
| proper_blob x c : proper (Blob x c)
| proper_link c : proper (Link c)
| proper_dir es : NoDup (map fst es) ->
    (forall f n, In (f, n) es -> plain f) -> (forall f n, In (f, n) es -> proper n) -> proper (Dir es).

(** The object at a path, without following links. *)
Definition at_path (t : node) (p : list string) : option node := entry_bypath t p.

(** The path a link with the given target in directory [dir] stands for: the components of the target
    are taken one by one, starting in [dir]; [None] if this leads out of the tree. *)
Fixpoint go (cur : list string) (cs : list string) : option (list string) :=
  match cs with
  | [] => Some cur
  | c :: r =>
      if String.eqb c "" || String.eqb c "." then go cur r
      else if String.eqb c ".." then match cur with [] => None | _ => go (removelast cur) r end
      else go (cur ++ [c]) r
  end.
Definition target_path (dir : list string) (target : string) : option (list string) :=
  if is_absolute target then None else go dir (split_slash target).

Section Follow.
  Context (root : node).

  (** [leads p q n]: following path [p] from the root, going on at the target whenever a link is met,
      one ends at the object [n], whose own path is [q]. *)
  Inductive leads : list string -> list string -> node -> Prop :=
  | leads_root : leads [] [] root
  | leads_entry p q es f n :
      leads p q (Dir es) -> entry_of f es = Some n -> is_link n = false -> leads (p ++ [f]) (q ++ [f]) n
  | leads_link p q es f c t q' n :
      leads p q (Dir es) -> entry_of f es = Some (Link c) ->
      target_path q c = Some t -> leads t q' n -> leads (p ++ [f]) q' n.

  (** [resolved q n m]: [m] is the tree of what one sees at [n], whose path is [q], with all links
      replaced by what they lead to. *)
  Inductive resolved : list string -> node -> node -> Prop :=
  | resolved_blob q x c : resolved q (Blob x c) (Blob x c)
  | resolved_dir q es ms : resolved_entries q es ms -> resolved q (Dir es) (Dir ms)
  with resolved_entries : list string -> list (string * node) -> list (string * node) -> Prop :=
  | resolved_nil q : resolved_entries q [] []
  | resolved_cons q f n es q' n' m ms :
      leads (q ++ [f]) q' n' -> resolved q' n' m -> resolved_entries q es ms ->
      resolved_entries q ((f, n) :: es) ((f, m) :: ms).
End Follow.

(** The tree without its links. *)
Fixpoint without_links (n : node) : node :=
  match n with
  | Dir es =>
      Dir ((fix all l := match l with
                         | [] => []
                         | (f, Link _) :: r => all r
                         | (f, m) :: r => (f, without_links m) :: all r
                         end) es)
  | _ => n
  end.

(** ** How an operating system follows links

    [walks cur cs q n]: being in directory [cur] with components [cs] still to go, one ends at [n], whose
    path is [q] (path resolution of POSIX, confined to the tree: going above its top is an error). *)
Section Walk.
  Context (root : node).
  Inductive walks : list string -> list string -> list string -> node -> Prop :=
  | walks_end cur n : at_path root cur = Some n -> walks cur [] cur n
  | walks_stay cur es c cs q n :
      c = "" \/ c = "." -> at_path root cur = Some (Dir es) -> walks cur cs q n -> walks cur (c :: cs) q n
  | walks_up cur es cs q n :
      at_path root cur = Some (Dir es) -> cur <> [] -> walks (removelast cur) cs q n ->
      walks cur (".." :: cs) q n
  | walks_entry cur es f m cs q n :
      plain f -> at_path root cur = Some (Dir es) -> entry_of f es = Some m -> is_link m = false ->
      walks (cur ++ [f]) cs q n -> walks cur (f :: cs) q n
  | walks_link cur es f c cs q n :
      plain f -> at_path root cur = Some (Dir es) -> entry_of f es = Some (Link c) -> is_absolute c = false ->
      walks cur (split_slash c ++ cs) q n -> walks cur (f :: cs) q n.
End Walk.

(** Link targets in the usual form: some steps up, then names. *)
Definition usual (c : string) : Prop :=
  exists k names, Forall plain names /\ repeat ".." k ++ names <> [] /\
    c = join_slash (repeat ".." k ++ names).
Definition usual_links (root : node) : Prop :=
  forall p c, at_path root p = Some (Link c) -> usual c.

(** Targets that do not lead out of the directory the link is in. *)
Definition downward (c : string) : Prop := exists t, target_path [] c = Some t.

Definition link_free (n : node) : Prop := forall p c, at_path n p <> Some (Link c).

(** All links stay within the tree. *)
Definition confined (root : node) : Prop :=
  forall d f c, at_path root (d ++ [f]) = Some (Link c) -> exists t, target_path d c = Some t.

(** Links leading out of their directory name an object of the tree that has no links in it. *)
Definition settled (root : node) : Prop :=
  forall d f c, at_path root (d ++ [f]) = Some (Link c) -> ~ downward c ->
    exists t n, target_path d c = Some t /\ at_path root t = Some n /\ link_free n.
