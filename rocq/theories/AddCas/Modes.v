(** The modes in which no link is followed; sub-paths. *)
From Coq Require Import String Ascii List Bool Arith Lia Permutation.
From Verif Require Import Hex.Model Path.Model Path.Spec GitTree.Model.
From Verif Require Symlinks.Spec GitTree.Spec GitTree.Proofs GitTree.Ids TreeOps.Spec.
From Verif Require Import AddCas.Model AddCas.Spec AddCas.Proofs AddCas.Sound AddCas.Complete.
Import ListNotations.
Local Open Scope string_scope.
Local Open Scope list_scope.
Local Open Scope nat_scope.

Section Modes.
  Context (ns : list inode) (fs : entry) (root : path).

  Lemma means_as_is q e m (M : means ns fs root None q e m) : as_is ns e m.
  Proof.
    revert q e m M. apply (means_ind2 ns fs root None (fun q e m _ => as_is ns e m)
      (fun q es ms _ => Forall2 (fun e m => fst e = fst m /\ as_is ns (snd e) (snd m)) es ms)).
    - intros q i n E. now constructor.
    - intros q es ms _ F. now constructor.
    - constructor.
    - intros q f e m es ms U _ A _ F. constructor; [split; [reflexivity|exact A]|exact F].
    - intros q f e es ms E. discriminate.
    - intros q f c es ms [_ D] _ F. constructor; [split; [reflexivity|now constructor]|exact F].
    - intros q f c t q' e m es ms [[E _]|[E|E]]; discriminate.
  Qed.

  Fixpoint as_is_means m {struct m} : forall q e, usual e = true -> as_is ns e m -> means ns fs root None q e m.
  Proof.
    destruct m as [x d|c|ms]; intros q e U A; inversion A; subst; try discriminate U.
    - now constructor.
    - constructor. match goal with X : Forall2 _ _ _ |- _ => rename X into F end. clear A U.
      revert es F. induction ms as [|[x m] ms IH]; intros es F; inversion F as [|[y e] [x' m'] es' ms' [E AE] F']; subst; [constructor|].
      cbn [fst snd] in *. subst y. specialize (IH _ F').
      destruct e as [i|c| |es2].
      + apply means_usual; [reflexivity| |exact IH]. now apply as_is_means.
      + inversion AE; subst. apply means_kept; [split; [now left|assumption]|exact IH].
      + inversion AE.
      + apply means_usual; [reflexivity| |exact IH]. now apply as_is_means.
  Qed.

  Lemma means_files q e m (M : means ns fs root (Some Ignore) q e m) : files_only ns e m.
  Proof.
    revert q e m M. apply (means_ind2 ns fs root (Some Ignore) (fun q e m _ => files_only ns e m)
      (fun q es ms _ => Forall2 (fun e m => fst e = fst m /\ files_only ns (snd e) (snd m)) (filter (fun e => usual (snd e)) es) ms)).
    - intros q i n E. now constructor.
    - intros q es ms _ F. now constructor.
    - constructor.
    - intros q f e m es ms U _ A _ F. cbn [filter snd]. rewrite U. constructor; [split; [reflexivity|exact A]|exact F].
    - intros q f e es ms _ U _ F. cbn [filter snd]. rewrite U. exact F.
    - intros q f c es ms [[E|E] _]; discriminate.
    - intros q f c t q' e m es ms [[E _]|[E|E]]; discriminate.
  Qed.

  Fixpoint files_means m {struct m} : forall q e, files_only ns e m -> means ns fs root (Some Ignore) q e m.
  Proof.
    destruct m as [x d|c|ms]; intros q e A; inversion A; subst.
    - now constructor.
    - constructor. match goal with X : Forall2 _ _ _ |- _ => rename X into F end. clear A.
      revert es F. induction ms as [|[x m] ms IH]; intros es.
      + induction es as [|[y e] es IHe]; intros F; [constructor|]. cbn [filter snd] in F. destruct (usual e) eqn:U; [inversion F|].
        apply means_ignored; auto.
      + induction es as [|[y e] es IHe]; intros F; [inversion F|]. cbn [filter snd] in F. destruct (usual e) eqn:U.
        * inversion F as [|? ? ? ? [E AE] F']; subst. cbn [fst snd] in *. subst y. apply means_usual; [exact U|now apply files_means|now apply IH].
        * apply means_ignored; auto.
  Qed.
End Modes.

(** ** The command *)
Section Command.
  Context (H : string -> string) (fs : entry) (limit : nat) (same : bool) (md : mode) (location : path) (st : state)
    (es : list (string * entry)).
  Context (RH : TreeOps.Spec.raw_ids H) (PF : proper fs) (AL : at_path fs location = Some (Dir es)).
  Context (WI : forall p i, at_path fs p = Some (Reg i) -> nth_error (inodes st) i <> None).
  Context (SA : sane H st) (FI : fine fs location md).

  Lemma inside_self : inside location md location.
  Proof. unfold inside. destruct md as [[]|]; auto; exists []; now rewrite app_nil_r. Qed.

  Lemma location_dir e : os limit fs [] location = Some e -> e = Dir es.
  Proof.
    intros L. destruct (proper_at _ _ _ PF AL) as [_ PL]. apply os_sound in L; [cbn [app] in L; congruence|exact PL|].
    intros a b c E Nb X. cbn [app] in E. rewrite E in AL. destruct (at_prefix _ _ _ _ AL Nb). congruence.
  Qed.

  Lemma add_sound fuel st' r : add_to_cas H fuel fs limit same md location st = (st', r) ->
    sane H st' /\ grows st st' /\
    forall hex, r = Some hex -> exists ms, means_entries (inodes st) fs location md location es ms /\
      hex = ToHexString (git_id H (IDir ms)) /\ has_all H st' (IDir ms).
  Proof.
    unfold add_to_cas. intros E.
    assert (FAIL : (st, None) = (st', r) -> sane H st' /\ grows st st' /\
      forall hex, r = Some hex -> exists ms, means_entries (inodes st) fs location md location es ms /\
        hex = ToHexString (git_id H (IDir ms)) /\ has_all H st' (IDir ms)).
    { intros X. injection X as <- <-. split; [exact SA|]. split; [apply grows_refl|discriminate]. }
    destruct (os limit fs [] location) as [e|] eqn:L; [|now apply FAIL]. rewrite (location_dir _ L) in E.
    destruct (create H fs limit same location md fuel [] st [] location) as [[s1 k1] o] eqn:C.
    destruct (create_sound H fs limit same location md st RH PF (ex_intro _ _ AL) WI FI fuel [] st [] location es s1 k1 o SA (grows_refl st))
      as (S1 & G1 & _ & R1); [intros p id t X; discriminate|apply inside_self|exact AL|exact C|].
    injection E as <- <-. split; [exact S1|]. split; [exact G1|]. intros hex X. destruct o as [id|]; [|discriminate]. injection X as <-.
    destruct (R1 id eq_refl) as (ms & M & -> & HA). eauto.
  Qed.

  Lemma add_complete ms : same = true -> (forall p e, at_path fs p = Some e -> List.length p < limit) ->
    means_entries (inodes st) fs location md location es ms ->
    exists N, forall fuel, N <= fuel -> exists st' hex, add_to_cas H fuel fs limit same md location st = (st', Some hex).
  Proof.
    intros SF LB M. assert (MD : means (inodes st) fs location md location (Dir es) (IDir ms)) by now constructor.
    destruct (import_runs H fs limit same location md st RH PF (ex_intro _ _ AL) WI LB SF FI location (Dir es) (IDir ms) MD) as [N K];
      [reflexivity|exact AL|apply inside_self|].
    exists N. intros fuel L.
    destruct (K fuel [] st [] [] "" [] L) as (s1 & k1 & a1 & E1).
    { intros p es' m []. }
    { split; [exact SA|]. split; [apply grows_refl|]. intros p id t X. discriminate. }
    cbn [process] in E1. unfold add_to_cas. rewrite (lookup_at fs limit PF LB _ _ AL : os limit fs [] location = _).
    destruct (create H fs limit same location md fuel [] st [] location) as [[s2 k2] [id|]]; [|discriminate]. cbn. eauto.
  Qed.
End Command.

(** ** Sub-paths *)
Section SubPath.
  Context (H : string -> string) (retrieve : string -> option string) (RH : TreeOps.Spec.raw_ids H).

  Lemma named_In f ms m : named f ms = Some m -> In (f, m) ms.
  Proof.
    induction ms as [|[g k] ms IH]; cbn; [discriminate|]. destruct (String.eqb_spec g f) as [->|N]; intros E; [left; congruence|right; auto].
  Qed.
  Lemma In_named f ms m : NoDup (map fst ms) -> In (f, m) ms -> named f ms = Some m.
  Proof.
    induction ms as [|[g x] ms IH]; cbn; [tauto|]. intros ND [E|I].
    - injection E as -> ->. now rewrite String.eqb_refl.
    - inversion ND; subst. destruct (String.eqb_spec g f) as [->|N]; [|auto].
      exfalso. apply H2. change f with (fst (f, m)). now apply in_map.
  Qed.

  Lemma find_entry_none name es : (forall i, ~ In (name, i) es) -> forall sofar, find_entry name es sofar = sofar.
  Proof.
    induction es as [|[n i] es IH]; intros NI sofar; [reflexivity|]. cbn.
    destruct (String.eqb_spec n name) as [->|N]; [exfalso; apply (NI i); now left|]. apply IH. intros j X. apply (NI j). now right.
  Qed.

  Lemma find_entry_one name es i : In (name, i) es -> NoDup (map fst es) -> forall sofar, find_entry name es sofar = Some i.
  Proof.
    induction es as [|[n j] es IH]; intros I ND sofar; [destruct I|]. cbn. inversion ND as [|? ? N1 N2]; subst. destruct I as [E|I].
    - injection E as -> ->. rewrite String.eqb_refl. apply find_entry_none. intros k X. apply N1. change name with (fst (name, k)). now apply in_map.
    - apply IH; assumption.
  Qed.

  Lemma infos_items g : ReadObjectInfos g = map (fun i => (fst i, (ToHexString (snd (snd i)), fst (snd i)))) (GitTree.Spec.items g).
  Proof.
    unfold ReadObjectInfos, GitTree.Spec.items. induction g as [|[id l] g IH]; [reflexivity|]. cbn [flat_map map concat fst snd].
    rewrite map_app, map_map, IH. reflexivity.
  Qed.

  (** What is read from the tree of a directory. *)
  Lemma read_dir_infos ms : proper_item (IDir ms) -> exists g,
    ReadTreeData H (fun _ => true) (dir_text H ms) (ToHexString (git_id H (IDir ms))) = Some g /\
    forall f, find_entry f (ReadObjectInfos g) None =
      match named f ms with Some m => Some (ToHexString (git_id H m), item_type m) | None => None end.
  Proof.
    intros P. inversion P as [| |ms' ND VN PR]; subst.
    pose proof (valid_singles H ms RH ND VN) as V.
    destruct (GitTree.Ids.read_tree_data H (fun _ => true) (singles H ms) V) as (g & R & _ & PM); [reflexivity|].
    exists g. split; [exact R|]. intros f. rewrite infos_items. rewrite items_singles in PM, V.
    assert (NDg : NoDup (map fst (map (fun i : GitTree.Spec.item => (fst i, (ToHexString (snd (snd i)), fst (snd i)))) (GitTree.Spec.items g)))).
    { rewrite map_map. apply (Permutation_NoDup (l := map fst (map (fun p : string * item => (fst p, (item_type (snd p), git_id H (snd p)))) ms))).
      - apply Permutation_map, Permutation_sym, PM.
      - rewrite map_map. exact ND. }
    destruct (named f ms) as [m|] eqn:N.
    - apply find_entry_one; [|exact NDg]. apply named_In in N. apply in_map_iff. exists (f, (item_type m, git_id H m)).
      split; [reflexivity|]. apply (Permutation_in _ (Permutation_sym PM)). apply in_map_iff. exists (f, m). auto.
    - apply find_entry_none. intros i X. apply in_map_iff in X. destruct X as ((n & t & id) & E & X). cbn in E. injection E as -> _.
      apply (Permutation_in _ PM) in X. apply in_map_iff in X. destruct X as ((x & m) & E & X). cbn in E. injection E as -> _ _.
      rewrite (In_named f ms m ND X) in N. discriminate.
  Qed.

  Lemma sub_path_step ms f rest : proper_item (IDir ms) -> serves H retrieve (IDir ms) ->
    RetrieveSubPathId H retrieve (ToHexString (git_id H (IDir ms)), Tree) (f :: rest) =
      match named f ms with
      | Some m => RetrieveSubPathId H retrieve (ToHexString (git_id H m), item_type m) rest
      | None => Some (ToHexString (git_id H (IDir ms)), Tree)
      end.
  Proof.
    intros P S. cbn [RetrieveSubPathId fst snd IsTreeObject otype_eqb negb]. rewrite (S [] ms eq_refl).
    destruct (read_dir_infos ms P) as (g & R & F). rewrite R, F. destruct (named f ms); reflexivity.
  Qed.

  Lemma sub_path p : forall m rest k, proper_item m -> serves H retrieve m -> item_at m p = Some k ->
    RetrieveSubPathId H retrieve (ToHexString (git_id H m), item_type m) (p ++ rest) =
    RetrieveSubPathId H retrieve (ToHexString (git_id H k), item_type k) rest.
  Proof.
    induction p as [|f p IH]; intros m rest k P S E; [injection E as <-; reflexivity|].
    cbn [item_at] in E. destruct m as [| |ms]; try discriminate. destruct (named f ms) as [m|] eqn:N; [|discriminate].
    cbn [app item_type]. rewrite sub_path_step by assumption. rewrite N. apply IH; [| |exact E].
    - inversion P as [| |? ? ? PR]; subst. apply (PR f). now apply named_In.
    - intros q ms' X. apply (S (f :: q)). cbn [item_at]. now rewrite N.
  Qed.

  Lemma sub_path_missing p m ms f rest : proper_item m -> serves H retrieve m -> item_at m p = Some (IDir ms) -> named f ms = None ->
    RetrieveSubPathId H retrieve (ToHexString (git_id H m), item_type m) (p ++ f :: rest) =
    Some (ToHexString (git_id H (IDir ms)), Tree).
  Proof.
    intros P S E N. rewrite (sub_path p m (f :: rest) (IDir ms) P S E). cbn [item_type].
    assert (PD : proper_item (IDir ms)).
    { clear - P E. revert m P E. induction p as [|g p IH]; intros m P E; [injection E as ->; exact P|]. cbn in E.
      destruct m as [| |ms']; try discriminate. destruct (named g ms') eqn:N; [|discriminate].
      inversion P as [| |? ? ? PR]; subst. eapply IH; [|exact E]. apply (PR g). now apply named_In. }
    rewrite sub_path_step; [now rewrite N|exact PD|]. intros q ms' X. apply (S (p ++ q)).
    clear - E X. revert m E. induction p as [|g p IH]; intros m E; [injection E as ->; exact X|]. cbn in E |- *.
    destruct m as [| |ms2]; try discriminate. destruct (named g ms2); [now apply IH|discriminate].
  Qed.
End SubPath.
