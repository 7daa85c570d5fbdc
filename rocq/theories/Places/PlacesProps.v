(** Directories of a storage: C145. *)
From Coq Require Import String List Bool NArith DecimalString.
From Verif Require Import Common.Strs Expr.DumpProofs Describe.Model Describe.Proofs Places.Model.
Import ListNotations.
Local Open Scope string_scope.
Local Open Scope list_scope.

(** What is stored. *)
Inductive purpose :=
| Files (i : N) | Executables (i : N) | Trees (i : N) | LargeFiles (i : N) | LargeTrees (i : N)
| Actions (i : N) | Targets (i : N) | Repositories (i : N) | Executions | Temporary (type : string).

(** Where it is stored. *)
Definition place (s : storage) (p : purpose) : path :=
  match p with
  | Files i => cas_f s i | Executables i => cas_x s i | Trees i => cas_t s i
  | LargeFiles i => cas_large_f s i | LargeTrees i => cas_large_t s i
  | Actions i => action_cache s i | Targets i => target_cache s i
  | Repositories i => GitGenerationRoot s i
  | Executions => ExecutionRoot s | Temporary t => TmpRoot s t
  end.

(** [b] is [a] or inside [a]. *)
Definition within (a b : path) : Prop := exists r, b = a ++ r.

(** Trees are stored as files in the compatible protocol; all else is independent of the protocol. *)
Definition stored_as (native : bool) (p : purpose) : purpose :=
  match p with
  | Trees i => if native then Trees i else Files i
  | LargeTrees i => if native then LargeTrees i else LargeFiles i
  | _ => p
  end.
Definition protocol_dependent (p : purpose) : bool :=
  match p with Repositories _ | Executions | Temporary _ => false | _ => true end.

Lemma generation_inj i j : generation i = generation j -> i = j.
Proof.
  unfold generation. intros E. cbn [append] in E. apply N_text_inj. unfold N_text in E. congruence.
Qed.

Lemma within_tail r a b : within (r ++ a) (r ++ b) -> within a b.
Proof. intros (t & E). rewrite <- app_assoc in E. apply app_inv_head in E. now exists t. Qed.
Lemma within_cons x y a b : within (x :: a) (y :: b) -> x = y /\ within a b.
Proof. intros (t & E). cbn [app] in E. injection E as -> ->. split; [reflexivity|now exists t]. Qed.
Lemma within_nil x a : within (x :: a) [] -> False.
Proof. intros (t & E). discriminate. Qed.

(** All directories are below the build root. *)
Theorem C145_below s p : exists r, r <> [] /\ place s p = build_root s ++ r.
Proof.
  destruct p; cbn [place]; unfold cas_f, cas_x, cas_t, cas_large_f, cas_large_t, action_cache, target_cache, GitGenerationRoot,
    ExecutionRoot, TmpRoot, cache_dir, UpdatePathForCompatibility, EphemeralRoot, GenerationCacheRoot, RepositoryGenerationRoot, CacheRoot, RepositoryRoot;
  rewrite <- ?app_assoc; eexists; split; try reflexivity; discriminate.
Qed.
Print Assumptions C145_below.

(** Things of different purpose, generation or protocol are never stored in the same directory or one
    inside the other, for storages with the same build root. *)
Theorem C145_apart s s' p q :
  build_root s = build_root s' ->
  within (place s p) (place s' q) ->
  stored_as (native s) p = stored_as (native s') q /\
  (protocol_dependent p = true -> native s = native s').
Proof.
  intros R W. destruct s as [root n b], s' as [root' n' b']. cbn [build_root native] in *. subst root'.
  destruct p as [i|i|i|i|i|i|i|i| |t], q as [j|j|j|j|j|j|j|j| |u]; cbn [place] in W;
  unfold cas_f, cas_x, cas_t, cas_large_f, cas_large_t, action_cache, target_cache, GitGenerationRoot,
    ExecutionRoot, TmpRoot, cache_dir, UpdatePathForCompatibility, EphemeralRoot, GenerationCacheRoot, RepositoryGenerationRoot, CacheRoot, RepositoryRoot in W;
  cbn [build_root native] in W; rewrite <- ?app_assoc in W; apply within_tail in W; cbn [app] in W;
  repeat (apply within_cons in W; let E := fresh "E" in destruct W as [E W]); try discriminate;
  try (exfalso; exact (within_nil _ _ W));
  destruct b, b'; try discriminate; cbn [stored_as protocol_dependent];
  try (match goal with E : generation ?i = generation ?j |- _ => apply generation_inj in E; subst end);
  (split; [congruence|congruence]).
Qed.
Print Assumptions C145_apart.

(** Settings are accepted exactly if the root, as far as given, is absolute and there is at least one
    generation; they are then those given. *)
Theorem C145_settings home root generations hash s :
  Build home root generations hash = Some s <->
  (forall a r, root = Some (a, r) -> a = true) /\ generations <> Some 0%N /\
  s = mkStorage (match root with Some (_, r) => r | None => home end)
                (match generations with Some n => n | None => 2%N end)
                (match hash with Some b => b | None => true end).
Proof.
  unfold Build. destruct root as [[[|] r]|].
  - destruct generations as [n|]; [destruct (N.eqb_spec n 0) as [->|N0]|]; split.
    + discriminate.
    + intros (_ & H & _). congruence.
    + intros [= <-]. repeat split; congruence.
    + intros (_ & _ & ->). reflexivity.
    + intros [= <-]. repeat split; congruence.
    + intros (_ & _ & ->). reflexivity.
  - split; [discriminate|]. intros (H & _). specialize (H _ _ eq_refl). discriminate.
  - destruct generations as [n|]; [destruct (N.eqb_spec n 0) as [->|N0]|]; split.
    + discriminate.
    + intros (_ & H & _). congruence.
    + intros [= <-]. repeat split; congruence.
    + intros (_ & _ & ->). reflexivity.
    + intros [= <-]. repeat split; congruence.
    + intros (_ & _ & ->). reflexivity.
Qed.
Print Assumptions C145_settings.

Example C145_nonvacuous :
  Build ["home"] (Some (true, ["r"])) (Some 3%N) (Some false) = Some (mkStorage ["r"] 3 false) /\
  place (mkStorage ["r"] 3 false) (Trees 1) = ["r"; "protocol-dependent"; "generation-1"; "compatible-sha256"; "casf"] /\
  within (place (mkStorage ["r"] 3 false) (Files 1)) (place (mkStorage ["r"] 2 false) (Trees 1)).
Proof. split; [reflexivity|]. split; [vm_compute; reflexivity|]. exists []. vm_compute. reflexivity. Qed.
