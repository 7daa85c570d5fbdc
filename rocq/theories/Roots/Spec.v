(** What the tree of a root shows, and when it is acceptable. *)
From Coq Require Import String Ascii List.
From Verif Require Import Common.Strs Path.Spec Path.Model Roots.Model.
Import ListNotations.
Local Open Scope string_scope.
Local Open Scope list_scope.

(** A tree as it is found in a repository or in a file system: in each directory the names are different, and
    they are names. *)
Definition proper (t : item) : Prop :=
  forall p es, at_path t p = Some (Directory es) -> NoDup (map fst es) /\ Forall plain (map fst es).

(** A path in a symbolic link that stays below the directory of the link all the way. *)
Definition downward (c : string) : Prop := is_absolute c = false /\ never_above (split_slash c).

(** A tree that is acceptable as it is: no special entries, and all symbolic links lead downwards. *)
Definition valid (t : item) : Prop :=
  forall p x, at_path t p = Some x -> x <> Special /\ forall c, x = SymLink c -> downward c.

(** The same for what is directly in a directory. *)
Definition directly_valid (es : list (string * item)) : Prop :=
  forall f x, In (f, x) es -> x <> Special /\ forall c, x = SymLink c -> downward c.

(** The tree without symbolic links and special entries. *)
Definition ordinary (n : item) : bool := match n with Regular _ _ | Directory _ => true | _ => false end.
Fixpoint strip (n : item) : item :=
  match n with
  | Directory es =>
      Directory ((fix go (l : list (string * item)) := match l with
                  | [] => []
                  | (f, x) :: r => if ordinary x then (f, strip x) :: go r else go r
                  end) es)
  | _ => n
  end.

(** What a root with tree [t] is to show. *)
Definition shown (ignore_special : bool) (t : item) : item := if ignore_special then strip t else t.

(** Links and special entries occur in the first two levels of directories only. *)
Definition special_at_top (t : item) : Prop :=
  forall p es, at_path t p = Some (Directory es) -> 2 <= List.length p -> Forall (fun e => ordinary (snd e) = true) es.

(** A regular file or a symbolic link: type and content. *)
Definition as_blob (n : item) : option (object_type * string) :=
  match n with
  | Regular false c => Some (File, c)
  | Regular true c => Some (Executable, c)
  | SymLink c => Some (Symlink, c)
  | _ => None
  end.

(** No symbolic link has to be followed to reach the place [p] of the tree. *)
Definition no_link_before (t : item) (p : list string) : Prop :=
  forall a b c, p = a ++ b -> b <> [] -> at_path t a <> Some (SymLink c).

(** The directory of the file system at the path [d] is [t], and [d] is the plain path to it. *)
Definition root_dir (fs : item) (d : string) (t : item) : Prop :=
  exists rs, Forall plain rs /\ d = ("/" ++ join_slash rs)%string /\ at_path fs rs = Some t /\
             exists es, t = Directory es.

(** The item of the tree a path leads to, component by component from the top. A path that is absolute or leads
    to the top or above it names nothing. *)
Definition seen (t : item) (path : string) : option item :=
  if is_absolute path then None
  else match place_of path with
       | mkPlace 0 (x :: d) => at_path t (rev (x :: d))
       | _ => None
       end.

(** The trees of Git roots considered in the theorems: without ignoring special entries, valid trees. With ignoring
    them, trees where they are at the top. *)
Definition readable (ignore_special : bool) (t : item) : Prop :=
  if ignore_special then special_at_top t else valid t.

(** What an artifact found in the root [r] stands for. *)
Section Stands.
Variable tree_id : list (string * item) -> string.
Variables blob_id plain_id : string -> string.
Variable fs : item.
Variable native : bool.
Variable r : root.
Variable repository : string.

Inductive stands_for : artifact -> item -> Prop :=
| s_local : forall p x type content, as_blob x = Some (type, content) ->
    (forall st, snd (BlobType fs r st p) = Some type) -> (forall st, snd (ReadContent fs r st p) = Some content) ->
    stands_for (Local p repository) x
| s_blob : forall x type content, native = true -> as_blob x = Some (type, content) ->
    stands_for (Known (blob_id content) type (Some repository)) x
| s_plain : forall x type content, native = false -> as_blob x = Some (type, content) ->
    stands_for (Known (plain_id content) type None) x
| s_tree : forall es, native = true -> stands_for (Known (tree_id es) Tree (Some repository)) (Directory es)
| s_directory : forall l es, NoDup (map fst l) -> (forall f, In f (map fst l) <-> In f (map fst es)) ->
    (forall f a x, In (f, a) l -> In (f, x) es -> stands_for a x) ->
    stands_for (TreeOf l) (Directory es).
End Stands.

(** The depth of nesting of directories. *)
Fixpoint height (n : item) : nat :=
  match n with
  | Directory es =>
      S ((fix go (l : list (string * item)) := match l with [] => 0 | (_, x) :: r => Nat.max (height x) (go r) end) es)
  | _ => 0
  end.
