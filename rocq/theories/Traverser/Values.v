(** Builds: success and values; renumbering the outputs of an action. *)
From Coq Require Import String Ascii List Bool Arith NArith ZArith Lia.
From Verif Require Import Dag.Traverse Dag.TraverseInv Dag.TraverseProps.
From Verif Require Import Common.Strs Describe.Model Executor.Local Executor.Process Executor.Build Executor.BuildSpec Executor.BuildProofs Executor.BuildProps.
Import ListNotations.
Local Open Scope string_scope.
Local Open Scope list_scope.
Local Open Scope nat_scope.

(** ** Builds and values *)

Lemma success_values X A g acts source targets l s m : wf g -> linked g acts -> (forall c, tree_shape (acts c)) -> acyclic g ->
  (forall a, In a targets -> known g a = true) ->
  run g (init g targets) l = Some s -> infos_after X A acts source (log s) m -> finished s ->
  (success s <-> forall a, In a targets -> exists i, value X A g acts source a i).
Proof.
  intros W LK TS AC KN R I1 FI. split.
  - intros SU a T. destruct (C36_all_built g targets l s W AC R FI SU) as (_ & ART & _).
    destruct (ART a (n_target g targets a T)) as [_ P].
    destruct (C58_values X A g acts source targets l s m a W LK TS R I1 P) as (i & _ & V). eauto.
  - intros HV. apply (C36_result g targets l s W R FI). split; [|exact KN]. intros n J.
    assert (ND : needed g targets n).
    { apply (C35_only_needed g targets l s n W R). apply (count_occ_In event_dec) in J.
      pose proof (C35_ends_once g targets l s n W R). apply (count_occ_In event_dec). lia. }
    assert (NV : match n with
                 | Art a => exists i, value X A g acts source a i
                 | Act c => exists ins ws, Forall2 (fun (x : string * nat) (y : string * object_info) =>
                     fst x = fst y /\ value X A g acts source (snd x) (snd y)) (n_inputs (acts c)) ins /\
                     Process X A (acts c) ins = (true, ws)
                 end).
    { clear J. induction ND as [a T|a c _ IH B|c d _ IH D].
      - now apply HV.
      - destruct IH as (i & V). inversion V as [? ? B'|? ? c' ins ws B' F P H']; subst; [congruence|].
        assert (c' = c) as -> by congruence. eauto.
      - destruct IH as (ins & ws & F & _). destruct (LK c) as [E _]. rewrite E in D. clear -D F.
        induction F as [|[p a] [q i] ? ? [_ V] F IH]; [destruct D|]. destruct D as [<-|D]; [eauto|auto]. }
    destruct (reach_ok g W targets l s R) as [O L]. destruct I1 as [pd E1]. destruct n as [a|c].
    + destruct NV as (i & V). pose proof (L a false J) as B. inversion V as [? ? B' S|? ? c' ins ws B']; subst; [|congruence].
      pose proof (proj2 (replay_end_source X A acts source _ a false _ E1 J)) as Q. rewrite S in Q.
      assert (false = true) by (apply Q; discriminate). discriminate.
    + destruct NV as (ins & ws & F & P).
      destruct (replay_end X A g acts source W LK TS _ c false _ O L E1 J) as (ins' & ws' & F' & P').
      pose proof (inputs_fun X A g acts source W LK TS c ins ins' F F') as <-. congruence.
Qed.

(** ** Renumbering the outputs of an action *)

Definition renum (f : nat -> nat) (l : list (string * nat)) : list (string * nat) := map (fun e => (fst e, f (snd e))) l.

Lemma save_renum f m base fail l :
  save m base fail (renum f l) = map (fun w => (f (fst w), snd w)) (save m base fail l).
Proof.
  induction l as [|[p a] l IH]; cbn; [reflexivity|]. destruct (alookup (rebase base p) m); cbn; [|exact IH]. now f_equal.
Qed.
Lemma check_renum f tr m base l : CheckOutputsExist tr m (renum f l) base = CheckOutputsExist tr m l base.
Proof. unfold CheckOutputsExist, renum. induction l as [|[p a] l IH]; cbn; [reflexivity|]. now rewrite IH. Qed.

Lemma process_renum X A f k inp inp' files dirs cmd cwd env props t mf nc ins :
  Process X A (mkAct k inp' (renum f files) (renum f dirs) cmd cwd env props t mf nc) ins =
  (fst (Process X A (mkAct k inp files dirs cmd cwd env props t mf nc) ins),
   map (fun w => (f (fst w), snd w)) (snd (Process X A (mkAct k inp files dirs cmd cwd env props t mf nc) ins))).
Proof.
  unfold Process. cbn [n_props n_no_cache n_dirs].
  set (pr := MergeProperties (x_props X) props). set (fl := if nc then DoNotCacheOutput else CacheOutput).
  assert (E : ExecuteAction X A (mkAct k inp' (renum f files) (renum f dirs) cmd cwd env props t mf nc) pr fl ins =
              ExecuteAction X A (mkAct k inp files dirs cmd cwd env props t mf nc) pr fl ins).
  { unfold ExecuteAction, order_of. cbn [n_kind n_command n_cwd n_files n_dirs n_env n_timeout].
    assert (M : forall l, map (fun e : string * nat => rebase cwd (fst e)) (renum f l) = map (fun e : string * nat => rebase cwd (fst e)) l)
      by (intros l; unfold renum; rewrite map_map; reflexivity).
    now rewrite !M. }
  rewrite E. clear E. generalize (ExecuteAction X A (mkAct k inp files dirs cmd cwd env props t mf nc) pr fl ins). intros [d b| |y]; [|reflexivity|].
  - destruct dirs as [|[p a] r]; reflexivity.
  - unfold ParseResponse. cbn [n_may_fail n_files n_dirs n_cwd]. destruct (negb _ && negb mf); [reflexivity|].
    destruct (y_artifacts y) as [[|e m]|]; try reflexivity. rewrite !check_renum.
    destruct (CheckOutputsExist false _ _ _ && CheckOutputsExist true _ _ _); [|reflexivity].
    cbn [fst snd]. rewrite <- save_renum. unfold renum. now rewrite map_app.
Qed.
