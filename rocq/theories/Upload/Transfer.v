(** Transfers keep stores complete. *)
From Coq Require Import String Ascii List Bool NArith Arith Permutation Lia.
From Verif Require Import Common.Strs Hex.Model GitTree.Model GitTree.Spec GitTree.Proofs TreeOps.Spec Path.Model Path.Spec
  Upload.Model Upload.Spec Upload.Logic.
Import ListNotations.
Local Open Scope string_scope.
Local Open Scope list_scope.

Lemma digest_eqb_spec a b : reflect (a = b) (digest_eqb a b).
Proof.
  destruct a as [x i], b as [y j]. unfold digest_eqb. cbn [fst snd].
  destruct (Bool.eqb_spec x y), (String.eqb_spec i j); cbn; constructor; congruence.
Qed.

Lemma lookup_In {V} d (l : list (digest * V)) v : lookup d l = Some v -> In (d, v) l.
Proof.
  induction l as [|[d' w] r IH]; cbn; [discriminate|].
  destruct (digest_eqb_spec d d'); [intros E; injection E as <-; subst; auto|auto].
Qed.
Lemma lookup_some {V} d (l : list (digest * V)) : In d (map fst l) -> exists v, lookup d l = Some v.
Proof.
  induction l as [|[d' w] r IH]; cbn; [intros []|].
  destruct (digest_eqb_spec d d'); [eauto|]. intros [E|E]; [congruence|auto].
Qed.
Lemma dedup_In ds : forall d, In d (dedup ds) <-> In d ds.
Proof.
  induction ds as [|x r IH]; cbn; [tauto|]. intros d. rewrite filter_In, IH.
  destruct (digest_eqb_spec x d); cbn; intuition congruence.
Qed.
Lemma select_In {V} ms (l : list (digest * V)) v : In v (select ms l) -> exists d, In d ms /\ In (d, v) l.
Proof.
  induction ms as [|d r IH]; cbn; [intros []|].
  destruct (lookup d l) as [w|] eqn:E; cbn.
  - intros [<-|I]; [exists d; split; [auto|exact (lookup_In _ _ _ E)]|]. destruct (IH I) as (d' & A & B). eauto.
  - intros I. destruct (IH I) as (d' & A & B). eauto.
Qed.
Lemma select_covers {V} ms (l : list (digest * V)) d : In d ms -> In d (map fst l) -> exists v, In v (select ms l) /\ In (d, v) l.
Proof.
  induction ms as [|x r IH]; cbn; [intros []|]. intros [->|I] K.
  - destruct (lookup_some d l K) as [v E]. rewrite E. exists v. split; [left; reflexivity|exact (lookup_In _ _ _ E)].
  - destruct (IH I K) as (v & A & B). exists v. split; [|exact B]. destruct (lookup x l); [right|]; exact A.
Qed.

Section H.
Variable H : string -> string.
Variable src : digest -> option string.
Variable fails : digest -> Prop.
Variable check : list string -> bool.

Notation has := (has H).
Notation complete := (complete H).
Notation ready := (ready H).
Notation wp := (wp H src fails).
Notation ext := (ext H).

Definition pend (s : cas) (c : list blob) (d : digest) : Prop := has s d \/ exists y, In y c /\ b_digest H y = d.

Lemma has_dec_classic s d : has s d \/ ~ has s d.
Proof.
  unfold Spec.has. destruct (existsb (fun o => (Bool.eqb (fst o) (fst d) && String.eqb (oid H (fst d) (snd o)) (snd d))%bool) s) eqn:E.
  - left. apply existsb_exists in E. destruct E as ([t x] & I & E). cbn in E. apply andb_true_iff in E. destruct E as [E1 E2].
    apply Bool.eqb_prop in E1. apply String.eqb_eq in E2. subst t. exists x. auto.
  - right. intros (x & I & E2). apply Bool.not_true_iff_false in E. apply E. apply existsb_exists. exists (fst d, x).
    split; [exact I|]. cbn. rewrite Bool.eqb_reflx, E2, String.eqb_refl. reflexivity.
Qed.

Lemma pend_mono s s' c d : incl s s' -> pend s c d -> pend s' c d.
Proof. intros I [A|A]; [left; eapply has_mono; eassumption|right; exact A]. Qed.

Lemma update_spec c b s :
  complete s -> (forall x, In x c -> ready s x) -> ready s b ->
  wp (UpdateContainerAndUpload H c b)
    (fun r s' => match r with
                 | Some c' => (forall x, In x c' -> ready s' x) /\ (forall d, pend s (b :: c) d -> pend s' c' d)
                 | None => True
                 end) s.
Proof.
  intros C Rc Rb. unfold UpdateContainerAndUpload.
  destruct (N.ltb kMaxGrpcLength (b_size b)).
  - cbn [Logic.wp]. split; [intros x [<-|[]]; exact Rb|].
    intros s1 ok E1 Hok s2 E2. destruct ok; [|exact I].
    assert (I2 : incl s s2) by (eapply incl_tran; [exact (proj1 E1)|exact (proj1 E2)]). split.
    + intros x Hx. eapply ready_mono; [exact I2|auto].
    + intros d [A|(y & [<-|Hy] & Ey)].
      * left. eapply has_mono; eassumption.
      * left. rewrite <- Ey. eapply has_mono; [exact (proj1 E2)|]. apply Hok; [reflexivity|now left].
      * right. eauto.
  - destruct (existsb (blob_eqb H b) c) eqn:X.
    + cbn [Logic.wp]. intros s2 E2. split.
      * intros x Hx. eapply ready_mono; [exact (proj1 E2)|auto].
      * intros d [A|(y & [<-|Hy] & Ey)].
        -- left. eapply has_mono; [exact (proj1 E2)|exact A].
        -- right. apply existsb_exists in X. destruct X as (z & Iz & Ez). exists z. split; [exact Iz|].
           unfold blob_eqb in Ez. apply andb_true_iff in Ez. destruct Ez as [Ez _].
           destruct (digest_eqb_spec (b_digest H b) (b_digest H z)); congruence.
        -- right. eauto.
    + destruct (N.ltb kMaxGrpcLength (total c + b_size b)).
      * cbn [Logic.wp]. split; [exact Rc|]. intros s1 ok E1 Hok s2 E2. destruct ok; [|exact I].
        assert (I2 : incl s s2) by (eapply incl_tran; [exact (proj1 E1)|exact (proj1 E2)]). split.
        -- intros x [<-|[]]. eapply ready_mono; [exact I2|auto].
        -- intros d [A|(y & [<-|Hy] & Ey)].
           ++ left. eapply has_mono; eassumption.
           ++ right. exists b. split; [now left|exact Ey].
           ++ left. rewrite <- Ey. eapply has_mono; [exact (proj1 E2)|]. apply Hok; auto.
      * cbn [Logic.wp]. intros s2 E2. split.
        -- intros x [<-|Hx]; (eapply ready_mono; [exact (proj1 E2)|auto]).
        -- intros d A. eapply pend_mono; [exact (proj1 E2)|exact A].
Qed.

Lemma upload_rest c s :
  (forall x, In x c -> ready s x) ->
  wp (Upload c (fun ok => Ret ok)) (fun ok s' => ok = true -> forall d, pend s c d -> has s' d) s.
Proof.
  intros R. cbn [Logic.wp]. split; [exact R|]. intros s1 ok E1 Hok s2 E2 T d [A|(y & Hy & <-)].
  - eapply has_mono; [exact (proj1 E2)|]. eapply has_mono; [exact (proj1 E1)|exact A].
  - eapply has_mono; [exact (proj1 E2)|]. apply Hok; assumption.
Qed.

(** ** Reading trees *)

Lemma tree_items_named data items d :
  tree_items check data = Some items -> named data d -> exists e, In e items /\ entry_digest e = d.
Proof.
  unfold tree_items. destruct (GitTree.Model.ReadTree check false data) as [es|] eqn:R; [|discriminate].
  intros E (l & i & V & G & I & ->). injection E as <-.
  assert (RD : ReadDirectTree false data = Some es).
  { unfold GitTree.Model.ReadTree in R. destruct (ReadDirectTree false data) as [es'|]; [|discriminate].
    destruct (symlink_ids es'); [congruence|]. destruct (check _); [congruence|discriminate]. }
  destruct G as (l' & Il & _ & Ed).
  assert (F : Forall valid_item l').
  { apply Forall_forall. intros j Hj. apply Il in Hj. exact (proj1 (Forall_forall _ _) (proj2 V) _ Hj). }
  unfold ReadDirectTree in RD. assert (P := parse_texts l' F (S (String.length data))). rewrite <- Ed in P.
  rewrite (P (Nat.lt_succ_diag_r _)) in RD.
  destruct (walk_items false l' [] (NoDup_nil _)) as (es' & W & _ & Pm). rewrite W in RD. injection RD as ->.
  exists i. split; [|reflexivity]. change (entries_of es) with (items es).
  apply (Permutation_in _ (Permutation_sym Pm)). apply in_or_app. right. apply filter_In. split; [now apply Il|].
  reflexivity.
Qed.

Hypothesis Hsrc : consistent H src.

Lemma entry_blob_digest (e : string * (otype * string)) data :
  src (entry_digest e) = Some data -> b_digest H (FromMemory (fst (snd e)) data) = entry_digest e.
Proof. intros E. apply Hsrc in E. unfold b_digest, FromMemory. cbn [b_tree b_data]. unfold entry_digest in *. cbn [fst snd] in *. now rewrite E. Qed.

(** The content of the source is complete in the store, apart from the tree itself. *)
Definition below (s : cas) (e : string * (otype * string)) : Prop :=
  IsTreeObject (fst (snd e)) = true ->
  forall data d, src (entry_digest e) = Some data -> named data d -> has s d.

Lemma below_ready s e data : below s e -> src (entry_digest e) = Some data -> ready s (FromMemory (fst (snd e)) data).
Proof. intros B E T d N. cbn in T, N. eapply B; eassumption. Qed.
Lemma below_mono s s' e : incl s s' -> below s e -> below s' e.
Proof. intros I B T data d E N. eapply has_mono; [exact I|]. eapply B; eassumption. Qed.

Lemma upload_entries_spec es : forall c s,
  complete s -> (forall x, In x c -> ready s x) -> (forall e, In e es -> below s e) ->
  wp (upload_entries H es c)
    (fun ok s' => ok = true -> (forall e, In e es -> has s' (entry_digest e)) /\ (forall d, pend s c d -> has s' d)) s.
Proof.
  induction es as [|e r IH]; intros c s C Rc B; cbn [upload_entries].
  - eapply wp_conseq; [|exact (upload_rest c s Rc)]. cbn beta. intros ok s' _ P T. split; [intros e []|auto].
  - cbn [Logic.wp]. intros s1 x E1 Hx. destruct x as [data|]; [|cbn; intros; discriminate].
    assert (Sx : src (entry_digest e) = Some data) by (destruct Hx as [Hx|Hx]; [first [discriminate Hx|destruct Hx; discriminate]|now symmetry]).
    assert (I1 := proj1 E1). assert (C1 := proj2 E1).
    apply wp_bind; [|exact C1].
    eapply wp_conseq; [|apply (update_spec c (FromMemory (fst (snd e)) data) s1 C1)].
    + cbn beta. intros c' s2 E2 P. destruct c' as [c'|]; [|cbn; intros; discriminate]. destruct P as [Rc' P].
      eapply wp_conseq; [|apply (IH c' s2 (proj2 E2) Rc')].
      * cbn beta. intros ok s3 E3 Q T. destruct (Q T) as [Q1 Q2]. split.
        -- intros e' [<-|He']; [|auto]. apply Q2, P. right. exists (FromMemory (fst (snd e)) data).
           split; [now left|now apply entry_blob_digest].
        -- intros d Hd. apply Q2, P. destruct Hd as [Hd|(y & Hy & Ey)]; [left; eapply has_mono; eassumption|].
           right. exists y. split; [now right|exact Ey].
      * intros e' He'. eapply below_mono; [exact (proj1 E2)|]. eapply below_mono; [exact I1|]. apply B. now right.
    + intros y Hy. eapply ready_mono; [exact I1|auto].
    + apply below_ready; [|exact Sx]. eapply below_mono; [exact I1|]. apply B. now left.
Qed.

Lemma verify_trees_spec rec es : 
  (forall items s, complete s ->
     wp (rec items) (fun ok s' => ok = true -> forall e, In e items -> has s' (entry_digest e)) s) ->
  forall s, complete s ->
  wp (verify_trees check rec es) (fun ok s' => ok = true -> forall e, In e es -> below s' e) s.
Proof.
  intros Hrec. induction es as [|e r IH]; intros s C; cbn [verify_trees].
  - cbn. intros s' _ _ e [].
  - destruct (IsTreeObject (fst (snd e))) eqn:T.
    + cbn [Logic.wp]. intros s1 x E1 Hx.
      destruct x as [data|]; [|cbn; intros; discriminate].
      assert (Sx : src (entry_digest e) = Some data) by (destruct Hx as [Hx|Hx]; [first [discriminate Hx|destruct Hx; discriminate]|now symmetry]).
      destruct (tree_items check data) as [items|] eqn:TI; [|cbn; intros; discriminate].
      apply wp_bind; [|exact (proj2 E1)].
      eapply wp_conseq; [|exact (Hrec items s1 (proj2 E1))]. cbn beta. intros ok s2 E2 P.
      destruct ok; [|cbn; intros; discriminate].
      eapply wp_conseq; [|exact (IH s2 (proj2 E2))]. cbn beta. intros ok s3 E3 Q T' e' [<-|He']; [|exact (Q T' e' He')].
      intros _ data' d Sd N. rewrite Sx in Sd. injection Sd as <-.
      destruct (tree_items_named data items d TI N) as (e' & He' & <-).
      eapply has_mono; [exact (proj1 E3)|]. exact (P eq_refl e' He').
    + eapply wp_conseq; [|exact (IH s C)]. cbn beta. intros ok s2 E2 Q T' e' [<-|He']; [|exact (Q T' e' He')].
      intros T2. congruence.
Qed.

(** What the answer to a query for missing objects leaves to do. *)
Lemma missing_rest (es : list (string * (otype * string))) s ms :
  let back := map (fun e => (entry_digest e, e)) es in
  incl ms (dedup (map fst back)) -> (forall d, In d (dedup (map fst back)) -> ~ has s d -> In d ms) ->
  forall s', incl s s' -> (forall e, In e (select ms back) -> has s' (entry_digest e)) ->
  forall e, In e es -> has s' (entry_digest e).
Proof.
  intros back I M s' Is P e He.
  assert (K : In (entry_digest e) (map fst back)).
  { unfold back. rewrite map_map. cbn. now apply in_map. }
  destruct (has_dec_classic s (entry_digest e)) as [A|A]; [eapply has_mono; eassumption|].
  assert (Hm : In (entry_digest e) ms) by (apply M; [now apply dedup_In|exact A]).
  destruct (select_covers ms back _ Hm K) as (v & Hv & Hb).
  unfold back in Hb. apply in_map_iff in Hb. destruct Hb as (e' & E & _). assert (E1 := f_equal fst E). assert (E2 := f_equal snd E). cbn [fst snd] in E1, E2. subst e'.
  rewrite <- E1. now apply P.
Qed.

Lemma VerifyOrUploadTree_spec fuel : forall tree s, complete s ->
  wp (VerifyOrUploadTree H check fuel tree)
    (fun ok s' => ok = true -> forall e, In e tree -> has s' (entry_digest e)) s.
Proof.
  induction fuel as [|f IH]; intros tree s C; cbn [VerifyOrUploadTree].
  - cbn. intros; discriminate.
  - cbn [Logic.wp]. intros s1 ms E1 I M. apply wp_bind; [|exact (proj2 E1)].
    set (missing := select ms (map (fun e => (entry_digest e, e)) tree)) in *.
    eapply wp_conseq; [|exact (verify_trees_spec _ missing IH s1 (proj2 E1))].
    cbn beta. intros ok s2 E2 P. destruct ok; [|cbn; intros; discriminate].
    eapply wp_conseq; [|apply (upload_entries_spec missing [] s2 (proj2 E2))].
    + cbn beta. intros ok s3 E3 Q T. destruct (Q T) as [Q1 _].
      eapply missing_rest; [exact I|exact M| |exact Q1].
      eapply incl_tran; [exact (proj1 E2)|exact (proj1 E3)].
    + intros x [].
    + exact (P eq_refl).
Qed.

Lemma VerifyOrUploadGitArtifact_spec fuel t id s : complete s ->
  wp (VerifyOrUploadGitArtifact H check fuel t id) (fun ok s' => ok = true -> has s' (IsTreeObject t, id)) s.
Proof.
  intros C. unfold VerifyOrUploadGitArtifact.
  assert (D : (IsTreeObject t, id) = entry_digest ("", (t, id))) by reflexivity.
  assert (UP : forall s' x, complete s' -> below s' ("", (t, id)) -> (x = None \/ x = src (IsTreeObject t, id)) ->
    wp match x with Some data => Upload [FromMemory t data] (fun ok => Ret ok) | None => Ret false end
       (fun ok s' => ok = true -> has s' (IsTreeObject t, id)) s').
  { intros s' x C' B Hx. destruct x as [data|]; [|cbn; intros; discriminate].
    assert (Sx : src (IsTreeObject t, id) = Some data) by (destruct Hx as [Hx|Hx]; [first [discriminate Hx|destruct Hx; discriminate]|now symmetry]).
    eapply wp_conseq; [|apply (upload_rest [FromMemory t data] s')].
    - cbn beta. intros ok s2 _ P T. apply (P T). right. exists (FromMemory t data). split; [now left|].
      rewrite D in Sx |- *. exact (entry_blob_digest ("", (t, id)) data Sx).
    - intros y [<-|[]]. rewrite D in Sx. exact (below_ready s' ("", (t, id)) data B Sx). }
  destruct (IsTreeObject t) eqn:T.
  - cbn [Logic.wp]. intros s1 x E1 Hx. destruct x as [data|]; [|cbn; intros; discriminate].
    assert (Sx : src (true, id) = Some data) by (destruct Hx as [Hx|Hx]; [first [discriminate Hx|destruct Hx; discriminate]|now symmetry]).
    destruct (tree_items check data) as [items|] eqn:TI; [|cbn; intros; discriminate].
    apply wp_bind; [|exact (proj2 E1)].
    eapply wp_conseq; [|exact (VerifyOrUploadTree_spec fuel items s1 (proj2 E1))]. cbn beta. intros ok s2 E2 P.
    destruct ok; [|cbn; intros; discriminate].
    cbn [Logic.wp]. intros s3 y E3 Hy. apply UP; [exact (proj2 E3)| |exact Hy].
    intros _ data' d Sd N. rewrite <- D, Sx in Sd. injection Sd as <-.
    destruct (tree_items_named data items d TI N) as (e' & He' & <-).
    eapply has_mono; [exact (proj1 E3)|]. exact (P eq_refl e' He').
  - cbn [Logic.wp]. intros s1 x E1 Hx. apply UP; [exact (proj2 E1)| |exact Hx].
    intros T'. cbn in T'. congruence.
Qed.

Lemma git_loop_spec rec es :
  (forall items s, complete s ->
     wp (rec items) (fun ok s' => ok = true -> forall e, In e items -> has s' (entry_digest e)) s) ->
  forall c s, complete s -> (forall x, In x c -> ready s x) ->
  wp (git_loop H check rec es c)
    (fun ok s' => ok = true -> (forall e, In e es -> has s' (entry_digest e)) /\ (forall d, pend s c d -> has s' d)) s.
Proof.
  intros Hrec. induction es as [|e r IH]; intros c s C Rc; cbn [git_loop].
  - eapply wp_conseq; [|exact (upload_rest c s Rc)]. cbn beta. intros ok s' _ P T. split; [intros e []|auto].
  - set (add := fun x : option string => match x with
      | Some data => bind (UpdateContainerAndUpload H c (FromMemory (fst (snd e)) data))
          (fun c => match c with Some c' => git_loop H check rec r c' | None => Ret false end)
      | None => Ret false end).
    assert (ADD : forall s1 x, ext s s1 -> below s1 e -> (x = None \/ x = src (entry_digest e)) ->
      wp (add x) (fun ok s' => ok = true -> (forall e', In e' (e :: r) -> has s' (entry_digest e')) /\
                                            (forall d, pend s c d -> has s' d)) s1).
    { intros s1 x E1 B Hx. destruct x as [data|]; [|cbn; intros; discriminate]. unfold add.
      assert (Sx : src (entry_digest e) = Some data) by (destruct Hx as [Hx|Hx]; [first [discriminate Hx|destruct Hx; discriminate]|now symmetry]).
      apply wp_bind; [|exact (proj2 E1)].
      eapply wp_conseq; [|apply (update_spec c (FromMemory (fst (snd e)) data) s1 (proj2 E1))].
      - cbn beta. intros c' s2 E2 P. destruct c' as [c'|]; [|cbn; intros; discriminate]. destruct P as [Rc' P].
        eapply wp_conseq; [|exact (IH c' s2 (proj2 E2) Rc')].
        cbn beta. intros ok s3 E3 Q T. destruct (Q T) as [Q1 Q2]. split.
        + intros e' [<-|He']; [|auto]. apply Q2, P. right. exists (FromMemory (fst (snd e)) data).
          split; [now left|now apply entry_blob_digest].
        + intros d Hd. apply Q2, P. destruct Hd as [Hd|(y & Hy & Ey)]; [left; eapply has_mono; [exact (proj1 E1)|exact Hd]|].
          right. exists y. split; [now right|exact Ey].
      - intros y Hy. eapply ready_mono; [exact (proj1 E1)|auto].
      - apply below_ready; assumption. }
    destruct (IsTreeObject (fst (snd e))) eqn:T.
    + cbn [Logic.wp]. intros s1 x E1 Hx. destruct x as [data|]; [|cbn; intros; discriminate].
      assert (Sx : src (entry_digest e) = Some data) by (destruct Hx as [Hx|Hx]; [first [discriminate Hx|destruct Hx; discriminate]|now symmetry]).
      destruct (tree_items check data) as [items|] eqn:TI; [|cbn; intros; discriminate].
      apply wp_bind; [|exact (proj2 E1)].
      eapply wp_conseq; [|exact (Hrec items s1 (proj2 E1))]. cbn beta. intros ok s2 E2 P.
      destruct ok; [|cbn; intros; discriminate].
      cbn [Logic.wp]. intros s3 y E3 Hy. apply ADD; [|  |exact Hy].
      * eapply ext_trans; [exact E1|]. eapply ext_trans; [exact E2|exact E3].
      * intros _ data' d Sd N. rewrite Sx in Sd. injection Sd as <-.
        destruct (tree_items_named data items d TI N) as (e' & He' & <-).
        eapply has_mono; [exact (proj1 E3)|]. exact (P eq_refl e' He').
    + cbn [Logic.wp]. intros s1 x E1 Hx. apply ADD; [exact E1| |exact Hx]. intros T'. congruence.
Qed.

Lemma GitRetrieve_spec fuel : forall infos s, complete s ->
  wp (GitRetrieveToCas H check fuel infos)
    (fun ok s' => ok = true -> forall e, In e infos -> has s' (entry_digest e)) s.
Proof.
  induction fuel as [|f IH]; intros infos s C; cbn [GitRetrieveToCas].
  - cbn. intros; discriminate.
  - cbn [Logic.wp]. intros s1 ms E1 I M.
    eapply wp_conseq; [|apply (git_loop_spec _ _ IH [] s1 (proj2 E1))].
    + cbn beta. intros ok s3 E3 Q T. destruct (Q T) as [Q1 _].
      eapply missing_rest; [exact I|exact M|exact (proj1 E3)|exact Q1].
    + intros x [].
Qed.

(** ** From another store *)

Hypothesis no_fail : forall d, ~ fails d.
Hypothesis readable : forall id data, src (true, id) = Some data -> exists items, tree_items check data = Some items.

Lemma local_loop_spec rec es :
  (forall items s, complete s ->
     wp (rec items) (fun ok s' => ok = true -> forall e, In e items -> has s' (entry_digest e)) s) ->
  forall c s, complete s -> (forall x, In x c -> ready s x) ->
  wp (local_loop H check rec es c)
    (fun ok s' => ok = true -> (forall e, In e es -> has s' (entry_digest e)) /\ (forall d, pend s c d -> has s' d)) s.
Proof.
  intros Hrec. induction es as [|e r IH]; intros c s C Rc; cbn [local_loop].
  - eapply wp_conseq; [|exact (upload_rest c s Rc)]. cbn beta. intros ok s' _ P T. split; [intros e []|auto].
  - assert (ADD : forall s1, ext s s1 -> below s1 e ->
      wp (ReadData (entry_digest e) (fun x =>
          match x with
          | Some data =>
              let b := FromMemory (fst (snd e)) data in
              local_loop H check rec r (if existsb (blob_eqb H b) c then c else b :: c)
          | None => Ret false
          end)) (fun ok s' => ok = true -> (forall e', In e' (e :: r) -> has s' (entry_digest e')) /\
                                            (forall d, pend s c d -> has s' d)) s1).
    { intros s1 E1 B. cbn [Logic.wp]. intros s2 x E2 Hx. destruct x as [data|]; [|cbn; intros; discriminate].
      assert (Sx : src (entry_digest e) = Some data) by (destruct Hx as [Hx|Hx]; [first [discriminate Hx|destruct Hx; discriminate]|now symmetry]).
      cbn zeta. set (b := FromMemory (fst (snd e)) data) in *.
      assert (Rb : ready s2 b) by (apply below_ready; [eapply below_mono; [exact (proj1 E2)|exact B]|exact Sx]).
      assert (I2 : incl s s2) by (eapply incl_tran; [exact (proj1 E1)|exact (proj1 E2)]).
      eapply wp_conseq; [|apply (IH (if existsb (blob_eqb H b) c then c else b :: c) s2 (proj2 E2))].
      - cbn beta. intros ok s3 E3 Q T. destruct (Q T) as [Q1 Q2]. split.
        + intros e' [<-|He']; [|auto]. apply Q2. right.
          rewrite <- (entry_blob_digest e data Sx). fold b.
          destruct (existsb (blob_eqb H b) c) eqn:X; [|exists b; split; [now left|reflexivity]].
          apply existsb_exists in X. destruct X as (z & Iz & Ez). exists z. split; [exact Iz|].
          unfold blob_eqb in Ez. apply andb_true_iff in Ez. destruct Ez as [Ez _].
          destruct (digest_eqb_spec (b_digest H b) (b_digest H z)); congruence.
        + intros d Hd. apply Q2. destruct Hd as [Hd|(y & Hy & Ey)]; [left; eapply has_mono; [exact I2|exact Hd]|].
          right. exists y. split; [|exact Ey]. destruct (existsb (blob_eqb H b) c); [|right]; exact Hy.
      - intros y Hy. destruct (existsb (blob_eqb H b) c); [|destruct Hy as [<-|Hy]; [exact Rb|]];
          (eapply ready_mono; [exact I2|auto]). }
    destruct (IsTreeObject (fst (snd e))) eqn:T.
    + cbn [Logic.wp]. intros s1 x E1 Hx. destruct Hx as [[Hx _]|Hx]; [destruct (no_fail _ Hx)|].
      apply wp_bind; [|exact (proj2 E1)].
      eapply wp_conseq; [|exact (Hrec (direct_entries check x) s1 (proj2 E1))]. cbn beta. intros ok s2 E2 P.
      destruct ok; [|cbn; intros; discriminate].
      apply ADD; [eapply ext_trans; [exact E1|exact E2]|].
      intros _ data d Sd N. unfold direct_entries in P. rewrite Hx, Sd in P.
      assert (Sd' := Sd). unfold entry_digest in Sd'. rewrite T in Sd'. destruct (readable _ _ Sd') as [items TI]. rewrite TI in P.
      destruct (tree_items_named data items d TI N) as (e' & He' & <-). exact (P eq_refl e' He').
    + apply ADD; [now apply ext_refl|]. intros T'. congruence.
Qed.

Lemma LocalRetrieve_spec fuel : forall infos s, complete s ->
  wp (LocalRetrieveToCas H check fuel infos)
    (fun ok s' => ok = true -> forall e, In e infos -> has s' (entry_digest e)) s.
Proof.
  induction fuel as [|f IH]; intros infos s C; cbn [LocalRetrieveToCas].
  - cbn. intros; discriminate.
  - cbn [Logic.wp]. intros s1 ms E1 I M.
    eapply wp_conseq; [|apply (local_loop_spec _ _ IH [] s1 (proj2 E1))].
    + cbn beta. intros ok s3 E3 Q T. destruct (Q T) as [Q1 _].
      eapply missing_rest; [exact I|exact M|exact (proj1 E3)|exact Q1].
    + intros x [].
Qed.

End H.
