(** What a user can rely on when actions are executed locally. *)
From Coq Require Import String Ascii List Bool NArith ZArith Permutation.
From Verif Require Import Common.Strs Path.Model Describe.Model Executor.Wire Executor.Local.
Import ListNotations.
Local Open Scope string_scope.

(** Two different texts with the same hash. *)
Definition collision (hash : string -> string) (x y : string) : Prop := x <> y /\ hash x = hash y.

(** Everything that influences what running an action does. *)
Definition same_action (a b : local_action) : Prop :=
  a_root a = a_root b /\ a_command a = a_command b /\ a_cwd a = a_cwd b /\ a_files a = a_files b /\
  a_dirs a = a_dirs b /\ a_paths a = a_paths b /\ a_env a = a_env b /\ a_props a = a_props b /\ a_timeout a = a_timeout b.

(** Values that fit the types of the program: only Git trees are marked as trees, timeouts have 64 bits. *)
Definition ok_action (t : hash_type) (a : local_action) : Prop :=
  (t = PlainSHA256 -> d_tree (a_root a) = false) /\ (- 2 ^ 63 <= a_timeout a < 2 ^ 63)%Z.

(** After the command, an object is at path [p], described by [i]. *)
Definition seen (hash : string -> string) (w : world) (p : string) (i : object_info) : Prop :=
  (exists x d, w_at w p = Some (FFile x (Some d)) /\ i = mkInfo d (if x then Executable else File) false) \/
  (exists c, w_at w p = Some (FLink (Some c) true) /\
             i = mkInfo (mkDigest (hash c) false (N.of_nat (String.length c))) Symlink false) \/
  (exists d, w_at w p = Some (FDir (Some d)) /\ i = mkInfo d Tree false).

(** The artifacts a response names. *)
Definition names (hash : string -> string) (p : response) (path : string) (i : object_info) : Prop :=
  alookup path (artifacts_of hash (p_result p)) = Some i.

(** The output paths an action declares. *)
Definition declared (a : local_action) : list string :=
  match a_mode a with V2_1 => a_paths a | _ => a_files a ++ a_dirs a end%list.

(** Running gave an acceptable object for a declared output: a file or symlink for a file, a directory or
    symlink for a directory; with Git hashes symlinks must not point upwards. *)
Definition good_link (t : hash_type) (c : string) : Prop := t = GitSHA1 -> PathIsNonUpwards c = true.
Definition file_there (t : hash_type) (w : world) (p : string) : Prop :=
  (exists x d, w_at w p = Some (FFile x (Some d))) \/
  (exists c, w_at w p = Some (FLink (Some c) true) /\ good_link t c).
Definition dir_there (w : world) (p : string) : Prop := exists d, w_at w p = Some (FDir (Some d)).
Definition dir_link_there (t : hash_type) (w : world) (p : string) : Prop :=
  exists c, w_at w p = Some (FLink (Some c) true) /\ good_link t c.
Definition outputs_there (t : hash_type) (a : local_action) (w : world) : Prop :=
  match a_mode a with
  | V2_1 => forall p, In p (a_paths a) -> file_there t w p \/ dir_there w p
  | _ => (forall p, In p (a_files a) -> file_there t w p) /\
         (forall p, In p (a_dirs a) -> dir_there w p \/ dir_link_there t w p)
  end.

(** The messages whose hashes make up the id of an action: the serialised [Command] and the serialised
    [Action] (with the flag [do_not_cache]). *)
Definition command_message (a : local_action) : string := command_text (request_of a false).
Definition action_message (hash : string -> string) (t : hash_type) (a : local_action) (do_not_cache : bool) : string :=
  action_text t (mkDigest (hash (command_message a)) false (N.of_nat (String.length (command_message a))))
    (request_of a do_not_cache).

(** The two actions with these flags have messages that collide. *)
Definition ids_collide (hash : string -> string) (t : hash_type) (a : local_action) (x : bool) (b : local_action) (y : bool) : Prop :=
  collision hash (command_message a) (command_message b) \/
  collision hash (action_message hash t a x) (action_message hash t b y).

(** Did the call execute the command? *)
Definition executed {A B} (o : A * B * bool) : bool := snd o.

(** What [ls] would find at a path has the right kind. *)
Definition is_file (i : object_info) : Prop := i_type i <> Tree.
Definition is_dir (i : object_info) : Prop := i_type i = Tree.

(** The outputs of an action, when no directory is a symlink and, where output paths are used, nothing is a
    symlink at all. *)
Definition plain_outputs (t : hash_type) (a : local_action) (w : world) : Prop :=
  match a_mode a with
  | V2_1 => forall p, In p (a_paths a) -> (exists x d, w_at w p = Some (FFile x (Some d))) \/ dir_there w p
  | _ => (forall p, In p (a_files a) -> file_there t w p) /\ (forall p, In p (a_dirs a) -> dir_there w p)
  end.

(** What may happen in between: no removal of the entry for [a], and no other action with the same id. *)
Definition undisturbed (hash : string -> string) (t : hash_type) (a : local_action) (e : event) : Prop :=
  forall id, CreateActionDigest hash t a false = Some id ->
  match e with
  | Forget k => k <> d_hash id
  | Exec f b w => b = a \/ forall id', CreateActionDigest hash t b false = Some id' -> d_hash id' <> d_hash id
  end.

(** A run of [a] that had the effects [w] is not repeated: later requests that may use the cache get its
    artifacts without running anything. *)
Definition served_later (hash : string -> string) (t : hash_type) (a : local_action) (w : world) : Prop :=
  forall pre post p ac f w',
    Execute hash t (after hash t pre) CacheOutput a w = (Some p, ac, true) ->
    (forall e, In e post -> undisturbed hash t a e) -> CacheEnabled f = true ->
    let now := after hash t (pre ++ Exec CacheOutput a w :: post) in
    exists p', Execute hash t now f a w' = (Some p', now, false) /\
               forall q i, names hash p' q i <-> names hash p q i.
