(** * What the manual says about the rc file (share/man/just-mrrc.5.md) *)

From Coq Require Import String Ascii List Arith Lia Bool ZArith NArith.
Import ListNotations.
From Verif.Rc Require Import Model.
Open Scope string_scope.
Open Scope list_scope.
Open Scope nat_scope.

(** An entry of an object. *)
Definition entry (k : string) (m : list (string * value)) (v : value) : Prop :=
  find k m = Some v.

(** The value at a key; a missing key counts as null. *)
Definition at_key (k : string) (m : list (string * value)) (v : value) : Prop :=
  entry k m v \/ (find k m = None /\ v = VNone).

(** "Location objects": where a location is, with the base for relative paths;
    [None] when it is to be ignored. A null counts as no location. *)
Inductive located (E : env) (ws : option string) : value -> option (string * string) -> Prop :=
| loc_null : located E ws VNone None
| loc_at m root path base dir :
    entry "root" m (VStr root) ->
    entry "path" m (VStr path) ->
    (entry "base" m (VStr base) \/ (find "base" m = None /\ base = ".")) ->
    (root = "workspace" /\ ws = Some dir
     \/ root = "home" /\ dir = home E
     \/ root = "system" /\ dir = "/"
     \/ root <> "workspace" /\ root <> "home" /\ root <> "system" /\ dir = "") ->
    located E ws (VMap m) (Some (canon E (join dir path), canon E (join dir base)))
| loc_outside m path base :
    entry "root" m (VStr "workspace") ->
    entry "path" m (VStr path) ->
    (entry "base" m (VStr base) \/ (find "base" m = None /\ base = ".")) ->
    ws = None ->
    located E ws (VMap m) None.

(** The location is ignored, or there is no such file. *)
Definition skipped (E : env) (F : fsys) (ws : option string) (v : value) : Prop :=
  exists r, located E ws v r /\ forall a b, r = Some (a, b) -> is_file F a = false.

(** The first location that is a file. *)
Definition first_existing (E : env) (F : fsys) (ws : option string) (l : list value)
    (r : option (string * string)) : Prop :=
  (r = None /\ Forall (skipped E F ws) l)
  \/ exists l1 v l2 a b, l = l1 ++ v :: l2 /\ Forall (skipped E F ws) l1
       /\ located E ws v (Some (a, b)) /\ is_file F a = true /\ r = Some (a, b).

(** The rc file that is read first. *)
Inductive first_rc (E : env) (F : fsys) : bool -> option string -> list (string * value) -> Prop :=
| rc_none p : first_rc E F true p []
| rc_given p m : is_file F p = true -> content F p = Some (VMap m) -> first_rc E F false (Some p) m
| rc_default p m : p = canon E (join (home E) ".just-mrrc") -> is_file F p = true ->
    content F p = Some (VMap m) -> first_rc E F false None m
| rc_missing p : p = canon E (join (home E) ".just-mrrc") -> is_file F p = false ->
    first_rc E F false None [].

(** The contents of those locations that refer to existing files, in order. *)
Inductive overlays (E : env) (F : fsys) (ws : option string)
  : list value -> list (list (string * value)) -> Prop :=
| ov_nil : overlays E F ws [] []
| ov_skip v r l : skipped E F ws v -> overlays E F ws r l -> overlays E F ws (v :: r) l
| ov_file v a b m r l : located E ws v (Some (a, b)) -> is_file F a = true ->
    content F a = Some (VMap m) -> overlays E F ws r l -> overlays E F ws (v :: r) (m :: l).

(** All the files that take part, the first one first. *)
Definition rc_files (E : env) (F : fsys) (ws : option string) (norc : bool) (rc : option string)
    (files : list (list (string * value))) : Prop :=
  exists m l v, files = m :: l /\ first_rc E F norc rc m /\ at_key "rc files" m v /\
    ((v = VNone /\ l = []) \/ exists locs, v = VList locs /\ overlays E F ws locs l).

(** The last of the objects that has the key. *)
Definition last_entry (k : string) (ms : list (list (string * value))) (v : value) : Prop :=
  exists ms1 m ms2, ms = ms1 ++ m :: ms2 /\ entry k m v /\ Forall (fun m' => find k m' = None) ms2.

(** The list, or the object, at a key; nothing if it is something else. *)
Definition list_at (k : string) (m : list (string * value)) : list value :=
  match find k m with Some (VList l) => l | _ => [] end.
Definition object_at (k : string) (m : list (string * value)) : list (string * value) :=
  match find k m with Some (VMap x) => x | _ => [] end.

(** ** Settings *)

(** What is given on the command line wins, otherwise the rc file says. *)
Inductive chosen {A} (given : option A) (rc : option A -> Prop) : option A -> Prop :=
| ch_given x : given = Some x -> chosen given rc (Some x)
| ch_rc o : given = None -> rc o -> chosen given rc o.

Definition path_at (E : env) (ws : option string) (v : value) (o : option string) : Prop :=
  exists r, located E ws v r /\ o = option_map fst r.

(** A path that has to exist. *)
Definition file_at (E : env) (F : fsys) (ws : option string) (v : value) (o : option string) : Prop :=
  path_at E ws v o /\ forall p, o = Some p -> is_file F p = true.

Definition number_at (conv : Z -> Z) (v : value) (o : option Z) : Prop :=
  (v = VNone /\ o = None) \/ exists z, v = VNum z /\ o = Some (conv z).

Definition string_at (v : value) (o : option string) : Prop :=
  (v = VNone /\ o = None) \/ exists s, v = VStr s /\ o = Some s.

Definition strings_at (v : value) (l : list string) : Prop :=
  (v = VNone /\ l = []) \/ v = VList (map VStr l).

(** An object of options, or none. *)
Definition options_at (v : value) (m : list (string * value)) : Prop :=
  (v = VNone /\ m = []) \/ v = VMap m.

(** The located paths of a list, in order, those that satisfy [keep]. *)
Inductive paths_of (E : env) (ws : option string) (keep : string -> bool)
  : list value -> list string -> Prop :=
| ps_nil : paths_of E ws keep [] []
| ps_ignored v r l : located E ws v None -> paths_of E ws keep r l ->
    paths_of E ws keep (v :: r) l
| ps_dropped v a b r l : located E ws v (Some (a, b)) -> keep a = false ->
    paths_of E ws keep r l -> paths_of E ws keep (v :: r) l
| ps_kept v a b r l : located E ws v (Some (a, b)) -> keep a = true ->
    paths_of E ws keep r l -> paths_of E ws keep (v :: r) (a :: l).

Definition paths_at (E : env) (ws : option string) (keep : string -> bool) (v : value)
    (l : list string) : Prop :=
  (v = VNone /\ l = []) \/ exists vs, v = VList vs /\ paths_of E ws keep vs l.

(** The first existing file of a list, or none. *)
Definition search_at (E : env) (F : fsys) (ws : option string) (v : value) (o : option string) : Prop :=
  (v = VNone /\ o = None)
  \/ exists vs r, v = VList vs /\ first_existing E F ws vs r /\ o = option_map fst r.

(** The arguments configured for a subcommand of just. *)
Fixpoint alookup (s : string) (l : list (string * list string)) : option (list string) :=
  match l with
  | [] => None
  | (k, v) :: r => if String.eqb s k then Some v else alookup s r
  end.
