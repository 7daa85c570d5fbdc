(** Model of the directories of a storage, src/buildtool/storage/config.hpp.

    Paths are lists of components; [operator/] with a relative path appends.  The checks of
    [StorageConfig::Builder::Build] for the build root are given as a boolean whether it is absolute. *)
From Coq Require Import String List Bool NArith DecimalString.
From Verif Require Import Describe.Model.
Import ListNotations.
Local Open Scope string_scope.
Local Open Scope list_scope.

Definition path := list string.

(** [StorageConfig], config.hpp:47-65 (without the backend description, see Remote/Backend.v). *)
Record storage := mkStorage { build_root : path; num_generations : N; native : bool }.

(** [StorageConfig::Builder::Build], config.hpp:190-230: [None] is the error; the options are the values
    set.  The default root is that below the home directory. *)
Definition Build (default_root : path) (root : option (bool * path)) (generations : option N) (hash_native : option bool)
    : option storage :=
  match (match root with Some (absolute, r) => if absolute then Some r else None | None => Some default_root end) with
  | None => None
  | Some r =>
  match (match generations with Some n => if (n =? 0)%N then None else Some n | None => Some 2%N end) with
  | None => None
  | Some n => Some (mkStorage r n (match hash_native with Some b => b | None => true end))
  end end.

Section Of.
  Variable s : storage.
  (** config.hpp:68-76. *)
  Definition CacheRoot : path := build_root s ++ ["protocol-dependent"].
  Definition RepositoryRoot : path := build_root s ++ ["repositories"].
  Definition generation (index : N) : string := ("generation-" ++ N_text index)%string.
  (** config.hpp:79-98. *)
  Definition RepositoryGenerationRoot (index : N) : path := RepositoryRoot ++ [generation index].
  Definition GitGenerationRoot (index : N) : path := RepositoryGenerationRoot index ++ ["git"].
  Definition GitRoot : path := GitGenerationRoot 0.
  (** config.hpp:101-117. *)
  Definition GenerationCacheRoot (index : N) : path := CacheRoot ++ [generation index].
  Definition EphemeralRoot : path := GenerationCacheRoot 0 ++ ["ephemeral"].
  Definition ExecutionRoot : path := EphemeralRoot ++ ["exec_root"].
  (** The parent of temporary directories, config.hpp:121-126. *)
  Definition TmpRoot (type : string) : path := EphemeralRoot ++ ["tmp-workspaces"; type].
  (** config.hpp:148-152. *)
  Definition UpdatePathForCompatibility (dir : path) (is_native : bool) : path :=
    dir ++ [if is_native then "git-sha1" else "compatible-sha256"].
  (** [CreateGenerationConfig], config.hpp:128-144. *)
  Definition cache_dir (index : N) : path := UpdatePathForCompatibility (GenerationCacheRoot index) (native s).
  Definition cas_f (index : N) : path := cache_dir index ++ ["casf"].
  Definition cas_x (index : N) : path := cache_dir index ++ ["casx"].
  Definition cas_t (index : N) : path := cache_dir index ++ [if native s then "cast" else "casf"].
  Definition cas_large_f (index : N) : path := cache_dir index ++ ["cas-large-f"].
  Definition cas_large_t (index : N) : path := cache_dir index ++ [if native s then "cas-large-t" else "cas-large-f"].
  Definition action_cache (index : N) : path := cache_dir index ++ ["ac"].
  Definition target_cache (index : N) : path := cache_dir index ++ ["tc"].
End Of.
