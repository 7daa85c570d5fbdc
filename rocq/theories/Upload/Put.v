(** Upload of input roots. *)
From Coq Require Import String Ascii List Bool NArith ZArith Arith Permutation Lia.
From Verif Require Import Common.Strs Hex.Model Hex.Proofs GitTree.Model GitTree.Spec GitTree.Proofs GitTree.Ids TreeOps.Spec TreeOps.Proofs
  Path.Model Path.Spec Upload.Model Upload.Spec Upload.Logic Upload.Transfer Upload.Root Upload.Build.
Import ListNotations.
Local Open Scope string_scope.
Local Open Scope list_scope.

Section H.
Variable H : string -> string.
Hypothesis HL : raw_ids H.
Variable src : digest -> option string.
Variable fails : digest -> Prop.

Notation has := (has H).
Notation complete := (complete H).
Notation ready := (ready H).
Notation wp := (wp H src fails).
Notation ext := (ext H).
Notation pend := (pend H).
Notation nid := (nid H).
Notation content := (content H).
Notation bt_of := (bt_of H).

Definition leaves (s : cas) (n : node) : Prop := forall q t id, view n q = Some (Content t id) -> has s (IsTreeObject t, id).

Lemma leaves_mono s s' n : incl s s' -> leaves s n -> leaves s' n.
Proof. intros I L q t id V. eapply has_mono; [exact I|]. eapply L; exact V. Qed.
Lemma leaves_child s es x c : proper (Dir es) -> In (x, c) es -> leaves s (Dir es) -> leaves s c.
Proof.
  intros P I L q t id V. apply (L (x :: q)). cbn. apply proper_dir in P. rewrite (sorted_alookup_In _ _ _ (proj1 P) I). exact V.
Qed.

Lemma dir_ready s es nodes : proper (Dir es) -> leaves s (Dir es) -> bt_of (Dir es) (BT (mkBlob true false (content es)) nodes) ->
  (forall n, In n nodes -> has s (b_digest H (bt_blob n))) -> ready s (mkBlob true false (content es)).
Proof.
  intros P L B N _ d Nm. cbn [b_data] in Nm.
  apply (named_items H (ditems H es) (content es) d (proper_items H HL es P) (content_object H HL es P)) in Nm.
  destruct Nm as ([x [ty raw]] & Hi & ->). apply in_ditems in Hi. destruct Hi as (c & Hc & -> & ->). cbn [fst snd].
  destruct c as [t id|sub].
  - cbn [ntype Spec.nid]. apply (leaves_child s es x _ P Hc L [] t id). reflexivity.
  - inversion B as [? ? _ B2]; subst. destruct (B2 x sub Hc) as (n & Hn & Bn). rewrite <- (bt_digest H _ _ Bn) at 1.
    exact (N n Hn).
Qed.

Lemma upload_nodes_spec nodes : forall c s,
  complete s -> (forall x, In x c -> ready s x) ->
  (forall b rec, In (b, rec) nodes -> b_tree b = true /\
     forall s1, ext s s1 -> wp rec (fun ok s' => ok = true -> ready s' b) s1) ->
  wp (upload_nodes H nodes c)
    (fun ok s' => ok = true -> (forall b rec, In (b, rec) nodes -> has s' (b_digest H b)) /\ (forall d, pend s c d -> has s' d)) s.
Proof.
  induction nodes as [|[b rec] r IH]; intros c s C Rc Hr; cbn [upload_nodes].
  - eapply wp_conseq; [|exact (upload_rest H src fails c s Rc)]. cbn beta. intros ok s' _ P T. split; [intros b rec []|auto].
  - destruct (Hr b rec (or_introl eq_refl)) as [Tb Hb]. rewrite Tb.
    apply wp_bind; [|exact C]. eapply wp_conseq; [|exact (Hb s (ext_refl H s C))]. cbn beta. intros ok s1 E1 R1.
    destruct ok; [|cbn; intros; discriminate]. specialize (R1 eq_refl).
    apply wp_bind; [|exact (proj2 E1)].
    eapply wp_conseq; [|apply (update_spec H src fails c b s1 (proj2 E1))].
    + cbn beta. intros c' s2 E2 P. destruct c' as [c'|]; [|cbn; intros; discriminate]. destruct P as [Rc' P].
      eapply wp_conseq; [|apply (IH c' s2 (proj2 E2) Rc')].
      * cbn beta. intros ok s3 E3 Q T. destruct (Q T) as [Q1 Q2]. split.
        -- intros b' rec' [X|X]; [injection X as <- <-|eauto]. apply Q2, P. right. exists b. split; [now left|reflexivity].
        -- intros d [Hd|(y & Hy & Ey)]; apply Q2, P; [left; eapply has_mono; [exact (proj1 E1)|exact Hd]|].
           right. exists y. split; [now right|exact Ey].
      * intros b' rec' X. destruct (Hr b' rec' (or_intror X)) as [T' W]. split; [exact T'|]. intros s3 E3. apply W.
        eapply ext_trans; [exact E1|]. eapply ext_trans; [exact E2|exact E3].
    + intros y Hy. eapply ready_mono; [exact (proj1 E1)|auto].
    + exact R1.
Qed.

Lemma upload_bt n : proper n -> forall bt s, bt_of n bt -> complete s -> leaves s n ->
  wp (CommonUploadBlobTree H bt) (fun ok s' => ok = true -> ready s' (bt_blob bt)) s.
Proof.
  induction n as [t id|es IH] using node_ind'; intros P bt s B C L; [inversion B|].
  inversion B as [? nodes B1 B2]; subst. cbn [CommonUploadBlobTree bt_blob].
  set (subs := map (fun n => (b_digest H (bt_blob n), (bt_blob n, CommonUploadBlobTree H n))) nodes).
  cbn [Logic.wp]. intros s1 ms E1 I M.
  assert (Sub : forall d b rec, In (d, (b, rec)) subs -> exists x sub n, In (x, Dir sub) es /\ In n nodes /\
     bt_of (Dir sub) n /\ d = b_digest H b /\ b = bt_blob n /\ rec = CommonUploadBlobTree H n).
  { intros d b rec X. unfold subs in X. apply in_map_iff in X. destruct X as (n & X & Hn). injection X as <- <- <-.
    destruct (B1 n Hn) as (x & sub & Hx & Bn). exists x, sub, n. repeat split; assumption. }
  eapply wp_conseq; [|apply (upload_nodes_spec (select ms subs) [] s1 (proj2 E1))].
  - cbn beta. intros ok s2 E2 Q T. destruct (Q T) as [Q1 _].
    assert (L2 : leaves s2 (Dir es)) by (eapply leaves_mono; [|exact L]; eapply incl_tran; [exact (proj1 E1)|exact (proj1 E2)]).
    apply (dir_ready s2 es nodes P L2 B). intros n Hn.
    destruct (has_dec_classic H s1 (b_digest H (bt_blob n))) as [A|A]; [eapply has_mono; [exact (proj1 E2)|exact A]|].
    assert (K : In (b_digest H (bt_blob n)) (map fst subs)).
    { unfold subs. rewrite map_map. cbn [fst]. apply in_map_iff. exists n. auto. }
    assert (Hm : In (b_digest H (bt_blob n)) ms) by (apply M; [now apply dedup_In|exact A]).
    destruct (select_covers ms subs _ Hm K) as ([b rec] & Hv & Hb).
    destruct (Sub _ _ _ Hb) as (x & sub & n' & _ & _ & _ & Ed & _). rewrite Ed. exact (Q1 b rec Hv).
  - intros x [].
  - intros b rec X. apply select_In in X. destruct X as (d & _ & X). destruct (Sub _ _ _ X) as (x & sub & n & Hx & Hn & Bn & _ & -> & ->).
    split; [inversion Bn; reflexivity|]. intros s2 E2. rewrite Forall_forall in IH.
    apply (IH _ Hx); [|exact Bn|exact (proj2 E2)|].
    + apply proper_dir in P. exact (proj2 (proj2 P _ _ Hx)).
    + apply (leaves_child s2 es x _ P Hx). eapply leaves_mono; [|exact L]. eapply incl_tran; [exact (proj1 E1)|exact (proj1 E2)].
Qed.

Variable ord : list child -> list child.
Hypothesis Hord : forall l, Permutation (ord l) l.

Lemma root_leaves l n s : root_of l n ->
  (forall p t id, In (p, Some (t, id)) l -> has s (IsTreeObject t, id)) -> leaves s n.
Proof. intros [R _] A q t id V. apply R in V. destruct V as (p & Hp & _). eauto. Qed.

Lemma upload_tree_wp l s : Forall good_input l -> complete s ->
  (forall p t id, In (p, Some (t, id)) l -> has s (IsTreeObject t, id)) ->
  wp (UploadTree H ord (map art l))
    (fun r s' => forall d, r = Some d -> has s' d /\ exists es, proper (Dir es) /\ root_of l (Dir es) /\ d = (true, nid (Dir es))) s.
Proof.
  intros G C A. unfold UploadTree. 
  assert (Hroot := input_root_some H HL ord Hord l). unfold input_root in Hroot.
  destruct (FromNamedArtifacts (map art l)) as [ns|]; [|cbn; intros; discriminate].
  unfold CommonUploadTreeNative. destruct (FromDirectoryTree H ord ns) as [bt|]; [|cbn; intros; discriminate].
  destruct (Hroot bt G eq_refl) as (_ & _ & _ & es & P & B & R).
  assert (D := bt_digest H _ _ B). cbn zeta.
  assert (Good : forall s' d, has s' (b_digest H (bt_blob bt)) -> Some (b_digest H (bt_blob bt)) = Some d ->
    has s' d /\ exists es, proper (Dir es) /\ root_of l (Dir es) /\ d = (true, nid (Dir es))).
  { intros s' d Hd E. injection E as <-. split; [exact Hd|]. exists es. rewrite D. auto. }
  cbn [Logic.wp]. intros s1 b E1 Hb. destruct b.
  - cbn. intros s2 E2 d. apply Good. eapply has_mono; [exact (proj1 E2)|auto].
  - apply wp_bind; [|exact (proj2 E1)].
    assert (L : leaves s1 (Dir es)) by (eapply leaves_mono; [exact (proj1 E1)|eapply root_leaves; eassumption]).
    eapply wp_conseq; [|exact (upload_bt (Dir es) P bt s1 B (proj2 E1) L)]. cbn beta. intros ok s2 E2 R2.
    destruct ok; [|cbn; intros; discriminate]. cbn [Logic.wp]. split; [intros x [<-|[]]; exact (R2 eq_refl)|].
    intros s3 ok E3 Hok s4 E4 d. destruct ok; [|discriminate]. apply Good. eapply has_mono; [exact (proj1 E4)|].
    apply Hok; [reflexivity|now left].
Qed.

(** ** Everything below a stored tree is stored *)

Notation collision := (collision H).

Lemma deep q : forall n s, proper n -> complete s -> has s (IsTreeObject (ntype n), nid n) ->
  collision s (fun y => In y (subs H n)) \/ forall sub, at_path n q = Some sub -> has s (IsTreeObject (ntype sub), nid sub).
Proof.
  induction q as [|x q IH]; intros n s P C Hn.
  - right. intros sub E. cbn in E. injection E as <-. exact Hn.
  - destruct n as [t id|es]; [right; intros sub E; discriminate|]. cbn [at_path].
    destruct (alookup x es) as [c|] eqn:L; [|right; intros; discriminate].
    destruct Hn as (data & Hd & Eo). cbn in Hd, Eo. change (TreeOps.Spec.nid H (Dir es)) with (tree_id H (content es)) in Eo.
    destruct (tree_id_inj H data (content es) Eo) as [E|E].
    + subst data. assert (Hc : has s (IsTreeObject (ntype c), nid c)).
      { apply (C (content es) _ Hd).
        apply (named_items H (ditems H es) (content es) _ (proper_items H HL es P) (content_object H HL es P)).
        exists (x, (ntype c, nid c)). split; [|reflexivity]. apply in_ditems. exists c. split; [exact (alookup_In _ _ _ L)|auto]. }
      apply proper_dir in P. destruct (IH c s (proj2 (proj2 P _ _ (alookup_In _ _ _ L))) C Hc) as [(u & v & U & V & W)|D]; [left|right; exact D].
      exists u, v. split; [exact U|]. split; [|exact W]. cbn [subs]. right. apply in_concat. exists (subs H c). split; [|exact V].
      apply in_map_iff. exists (x, c). split; [reflexivity|exact (alookup_In _ _ _ L)].
    + left. exists data, (content es). split; [exact Hd|]. split; [now left|exact E].
Qed.

Lemma deep_source s d d' : consistent H src -> complete s -> has s d -> reaches src d d' ->
  has s d' \/ collision s (fun y => exists i, src i = Some y).
Proof.
  intros K C Hd R. induction R as [d|d data d1 d2 T E N R IH]; [now left|].
  destruct Hd as (x & Hx & Ex). rewrite T in Hx, Ex. assert (Ed := K _ _ E). rewrite T in Ed. cbn in Ex, Ed. rewrite <- Ed in Ex.
  destruct (tree_id_inj H x data Ex) as [->|W]; [apply IH; exact (C _ _ Hx N)|]. right. exists x, data. eauto.
Qed.

(** ** Success *)

Lemma outcome_bind {A B} (p : prog A) (f : A -> prog B) P :
  outcome src (fun a => outcome src P (f a)) p -> outcome src P (bind p f).
Proof. induction p; cbn [outcome bind]; auto. Qed.
Lemma outcome_impl {A} (p : prog A) (P Q : A -> Prop) : (forall a, P a -> Q a) -> outcome src P p -> outcome src Q p.
Proof. intros I. induction p; cbn [outcome]; auto. Qed.

(** Such runs exist. *)
Lemma steps_app {A} (x y z : prog A * cas) : steps H src fails x y -> steps H src fails y z -> steps H src fails x z.
Proof. induction 1; [auto|]. intros. eapply steps_step; [eassumption|auto]. Qed.
Lemma store_all {A} (k : bool -> prog A) all bs : incl bs all -> forall s,
  exists s', steps H src fails (Upload all k, s) (Upload all k, s') /\ incl s s' /\ forall b, In b bs -> In (b_tree b, b_data b) s'.
Proof.
  induction bs as [|b bs IH]; intros I s; [exists s; split; [apply steps_refl|split; [apply incl_refl|intros b []]]|].
  destruct (IH (fun x Hx => I x (or_intror Hx)) ((b_tree b, b_data b) :: s)) as (s' & S & I' & F). exists s'.
  split; [eapply steps_step; [apply step_store, I; now left|exact S]|]. split; [eapply incl_tran; [apply incl_tl, incl_refl|exact I']|].
  intros x [<-|Hx]; [apply I'; now left|auto].
Qed.
Lemma outcome_run {A} (p : prog A) P : outcome src P p -> forall s, exists a s', steps H src fails (p, s) (Ret a, s') /\ P a.
Proof.
  induction p as [a|ds k IH|d k IH|bs k IH|d k IH|d k IH]; cbn [outcome]; intros O s.
  - exists a, s. split; [apply steps_refl|exact O].
  - destruct (IH ds (O ds (incl_refl _)) s) as (a & s' & S & Pa). exists a, s'. split; [|exact Pa].
    eapply steps_step; [apply (step_missing _ _ _ _ _ _ ds); [apply incl_refl|auto]|exact S].
  - destruct (IH false (O false) s) as (a & s' & S & Pa). exists a, s'. split; [|exact Pa].
    eapply steps_step; [apply (step_available _ _ _ _ _ _ false); discriminate|exact S].
  - destruct (store_all k bs bs (incl_refl _) s) as (s1 & S1 & _ & F).
    destruct (IH true O s1) as (a & s' & S & Pa). exists a, s'. split; [|exact Pa]. eapply steps_app; [exact S1|].
    eapply steps_step; [apply (step_uploaded _ _ _ _ _ _ true)|exact S]. intros _ b Hb. exists (b_data b). split; [exact (F b Hb)|reflexivity].
  - destruct (IH _ O s) as (a & s' & S & Pa). exists a, s'. split; [|exact Pa].
    eapply steps_step; [apply step_read_tree; right; reflexivity|exact S].
  - destruct (IH _ O s) as (a & s' & S & Pa). exists a, s'. split; [|exact Pa].
    eapply steps_step; [apply step_read_data; right; reflexivity|exact S].
Qed.

Lemma update_outcome c b : outcome src (fun r => r <> None) (UpdateContainerAndUpload H c b).
Proof.
  unfold UpdateContainerAndUpload. destruct (N.ltb _ _); [cbn; discriminate|]. destruct (existsb _ _); [cbn; discriminate|].
  destruct (N.ltb _ _); cbn; discriminate.
Qed.

Lemma upload_nodes_outcome nodes : (forall b rec, In (b, rec) nodes -> outcome src (fun ok => ok = true) rec) ->
  forall c, outcome src (fun ok => ok = true) (upload_nodes H nodes c).
Proof.
  induction nodes as [|[b rec] r IH]; intros Hr c; cbn [upload_nodes]; [reflexivity|].
  assert (Add : outcome src (fun ok => ok = true) (bind (UpdateContainerAndUpload H c b)
                   (fun c => match c with Some c' => upload_nodes H r c' | None => Ret false end))).
  { apply outcome_bind. eapply outcome_impl; [|apply update_outcome]. cbn beta. intros [c'|] N; [|congruence].
    apply IH. intros b' rec' X. eapply Hr. right. exact X. }
  destruct (b_tree b); [|exact Add]. apply outcome_bind.
  eapply outcome_impl; [|apply (Hr b rec); now left]. cbn beta. intros ok ->. exact Add.
Qed.

Lemma upload_bt_outcome n : forall bt, bt_of n bt -> outcome src (fun ok => ok = true) (CommonUploadBlobTree H bt).
Proof.
  induction n as [t id|es IH] using node_ind'; intros bt B; [inversion B|].
  inversion B as [? nodes B1 B2]; subst. cbn [CommonUploadBlobTree outcome]. intros ms I.
  apply upload_nodes_outcome. intros b rec X. apply select_In in X. destruct X as (d & _ & X).
  apply in_map_iff in X. destruct X as (n & X & Hn). injection X as _ _ <-. destruct (B1 n Hn) as (x & sub & Hx & Bn).
  rewrite Forall_forall in IH. exact (IH _ Hx n Bn).
Qed.

Lemma upload_tree_outcome l : Forall good_input l ->
  Forall (fun i => inside (fst i)) l -> conflict_free l -> Forall (fun i => snd i <> None) l ->
  outcome src (fun r => r <> None) (UploadTree H ord (map art l)).
Proof.
  intros G I C N. destruct (input_root_exists H HL ord Hord l G I C N) as [bt E].
  destruct (input_root_some H HL ord Hord l bt G E) as (_ & _ & _ & es & P & B & R).
  unfold input_root in E. unfold UploadTree, CommonUploadTreeNative.
  destruct (FromNamedArtifacts (map art l)) as [ns|]; [|discriminate]. rewrite E. cbn zeta. cbn [outcome]. intros [|]; [cbn; discriminate|].
  apply outcome_bind. eapply outcome_impl; [|exact (upload_bt_outcome _ _ B)]. cbn beta. intros ok ->. cbn. discriminate.
Qed.

(** ** Sizes *)

Lemma calls_bind {A B} P (p : prog A) (f : A -> prog B) : calls P p -> (forall a, calls P (f a)) -> calls P (bind p f).
Proof.
  intros C F. induction p; cbn [calls bind] in *; auto. destruct C. split; auto.
Qed.

Definition small (c : list blob) : Prop := (total c <= kMaxGrpcLength)%N.
Lemma small_ok c : small c -> size_ok c.
Proof. intros S. right. exact S. Qed.

(** Containers stay small. *)
Lemma calls_update {B} c b (f : option (list blob) -> prog B) :
  small c -> (forall r, (forall c', r = Some c' -> small c') -> calls size_ok (f r)) ->
  calls size_ok (bind (UpdateContainerAndUpload H c b) f).
Proof.
  intros S F. unfold UpdateContainerAndUpload. destruct (N.ltb_spec kMaxGrpcLength (b_size b)) as [L|L].
  - cbn. split; [left; cbn; lia|]. intros ok. apply F. intros c'. destruct ok; [|discriminate]. intros X. injection X as <-. exact S.
  - destruct (existsb (blob_eqb H b) c).
    + cbn. apply F. intros c' X. injection X as <-. exact S.
    + destruct (N.ltb_spec kMaxGrpcLength (total c + b_size b)) as [L2|L2].
      * cbn. split; [now apply small_ok|]. intros ok. apply F. intros c'. destruct ok; [|discriminate]. intros X. injection X as <-.
        unfold small, total. cbn [fold_right]. rewrite N.add_0_r. exact L.
      * cbn. apply F. intros c' X. injection X as <-. unfold small, total in *. cbn [fold_right]. rewrite N.add_comm. exact L2.
Qed.
Lemma small_nil : small [].
Proof. unfold small. cbn. apply N.le_0_l. Qed.

Lemma upload_nodes_calls nodes : (forall b rec, In (b, rec) nodes -> calls size_ok rec) ->
  forall c, small c -> calls size_ok (upload_nodes H nodes c).
Proof.
  induction nodes as [|[b rec] r IH]; intros Hr c S; cbn [upload_nodes].
  - cbn. split; [now apply small_ok|auto].
  - assert (Add : calls size_ok (bind (UpdateContainerAndUpload H c b)
                   (fun c => match c with Some c' => upload_nodes H r c' | None => Ret false end))).
    { apply calls_update; [exact S|]. intros [c'|] Sc; [|exact I]. apply IH; [|auto]. intros b' rec' X. eapply Hr. right. exact X. }
    destruct (b_tree b); [|exact Add]. apply calls_bind; [apply (Hr b rec); now left|]. intros [|]; [exact Add|exact I].
Qed.

Section BInd.
Variable P : btree -> Prop.
Hypothesis HB : forall b nodes, Forall P nodes -> P (BT b nodes).
Fixpoint btree_ind' (t : btree) : P t :=
  match t with
  | BT b nodes =>
      HB b nodes ((fix go (l : list btree) : Forall P l :=
                match l with [] => Forall_nil _ | p :: r => Forall_cons _ (btree_ind' p) (go r) end) nodes)
  end.
End BInd.

Lemma upload_bt_calls t : calls size_ok (CommonUploadBlobTree H t).
Proof.
  induction t as [b nodes IH] using btree_ind'. cbn [CommonUploadBlobTree calls]. intros ms. apply upload_nodes_calls; [|exact small_nil].
  intros b' rec X. apply select_In in X. destruct X as (d & _ & X). apply in_map_iff in X. destruct X as (n & X & Hn). injection X as _ _ <-.
  rewrite Forall_forall in IH. exact (IH n Hn).
Qed.
Lemma upload_tree_calls arts : calls size_ok (UploadTree H ord arts).
Proof.
  unfold UploadTree, CommonUploadTreeNative. destruct (FromNamedArtifacts arts) as [ns|]; [|exact I].
  destruct (FromDirectoryTree H ord ns) as [bt|]; [|exact I]. cbn zeta. cbn [calls]. intros [|]; [exact I|].
  apply calls_bind; [apply upload_bt_calls|]. intros [|]; [|exact I]. cbn. split; [left; cbn; lia|intros; exact I].
Qed.

Variable check : list string -> bool.
Lemma verify_trees_calls rec es : (forall items, calls size_ok (rec items)) -> calls size_ok (verify_trees check rec es).
Proof.
  intros R. induction es as [|e r IH]; cbn [verify_trees]; [exact I|]. destruct (IsTreeObject _); [|exact IH]. cbn [calls].
  intros x. destruct (match x with Some data => tree_items check data | None => None end); [|exact I].
  apply calls_bind; [apply R|]. intros [|]; [exact IH|exact I].
Qed.
Lemma upload_entries_calls es : forall c, small c -> calls size_ok (upload_entries H es c).
Proof.
  induction es as [|e r IH]; intros c S; cbn [upload_entries].
  - cbn. split; [now apply small_ok|auto].
  - cbn [calls]. intros [data|]; [|exact I]. apply calls_update; [exact S|]. intros [c'|] Sc; [|exact I]. apply IH. auto.
Qed.
Lemma verify_calls fuel : forall tree, calls size_ok (VerifyOrUploadTree H check fuel tree).
Proof.
  induction fuel as [|f IH]; intros tree; cbn [VerifyOrUploadTree]; [exact I|]. cbn [calls]. intros ms.
  apply calls_bind; [apply verify_trees_calls; exact IH|]. intros [|]; [apply upload_entries_calls, small_nil|exact I].
Qed.
Lemma git_artifact_calls fuel t id : calls size_ok (VerifyOrUploadGitArtifact H check fuel t id).
Proof.
  unfold VerifyOrUploadGitArtifact.
  assert (U : forall x, calls size_ok (match x with Some data => Upload [FromMemory t data] (fun ok => Ret ok) | None => Ret false end)).
  { intros [data|]; [|exact I]. cbn. split; [left; cbn; lia|auto]. }
  destruct (IsTreeObject t); cbn [calls]; [|exact U]. intros x.
  destruct (match x with Some data => tree_items check data | None => None end); [|exact I].
  apply calls_bind; [apply verify_calls|]. intros [|]; [exact U|exact I].
Qed.
Lemma git_loop_calls rec es : (forall items, calls size_ok (rec items)) -> forall c, small c -> calls size_ok (git_loop H check rec es c).
Proof.
  intros R. induction es as [|e r IH]; intros c S; cbn [git_loop].
  - cbn. split; [now apply small_ok|auto].
  - assert (U : forall x, calls size_ok (match x with
        | Some data => bind (UpdateContainerAndUpload H c (FromMemory (fst (snd e)) data))
            (fun c => match c with Some c' => git_loop H check rec r c' | None => Ret false end)
        | None => Ret false end)).
    { intros [data|]; [|exact I]. apply calls_update; [exact S|]. intros [c'|] Sc; [|exact I]. apply IH. auto. }
    destruct (IsTreeObject _); cbn [calls]; [|exact U]. intros x.
    destruct (match x with Some data => tree_items check data | None => None end); [|exact I].
    apply calls_bind; [apply R|]. intros [|]; [exact U|exact I].
Qed.
Lemma git_retrieve_calls fuel : forall infos, calls size_ok (GitRetrieveToCas H check fuel infos).
Proof.
  induction fuel as [|f IH]; intros infos; cbn [GitRetrieveToCas]; [exact I|]. cbn [calls]. intros ms. apply git_loop_calls; [exact IH|exact small_nil].
Qed.

(** ** Transfers from complete sources succeed *)

Notation holds := (holds src).
Hypothesis links : forall ids, check ids = true.

Lemma items_of l data : valid_items l -> git_tree_object l data ->
  exists items, tree_items check data = Some items /\ forall e, In e items -> In e l.
Proof.
  intros V (l' & Il & _ & Ed).
  assert (F : Forall valid_item l').
  { apply Forall_forall. intros j Hj. apply Il in Hj. exact (proj1 (Forall_forall _ _) (proj2 V) _ Hj). }
  assert (P := parse_texts l' F (S (String.length data))). rewrite <- Ed in P.
  destruct (walk_items false l' [] (NoDup_nil _)) as (es' & W & _ & Pm).
  assert (RD : ReadDirectTree false data = Some es').
  { unfold ReadDirectTree. rewrite (P (Nat.lt_succ_diag_r _)). exact W. }
  exists (entries_of es'). split.
  - unfold tree_items, GitTree.Model.ReadTree. rewrite RD. destruct (symlink_ids es'); [reflexivity|]. now rewrite links.
  - intros e He. change (entries_of es') with (items es') in He. apply (Permutation_in _ Pm) in He.
    apply in_app_or in He. destruct He as [[]|He]. apply filter_In in He. apply Il, He.
Qed.

Lemma holds_items n d : holds (S n) d -> exists data, src d = Some data /\
  (fst d = true -> exists items, tree_items check data = Some items /\ forall e, In e items -> holds n (entry_digest e)).
Proof.
  intros (data & E & Hi). exists data. split; [exact E|]. intros T. destruct (Hi T) as (l & V & G & P).
  destruct (items_of l data V G) as (items & TI & I). exists items. split; [exact TI|]. intros e He. apply (P e). auto.
Qed.
Lemma holds_mono n m d : holds n d -> n <= m -> holds m d.
Proof.
  revert m d. induction n as [|n IH]; intros m d Hh L; [destruct Hh|]. destruct m as [|m]; [lia|].
  destruct Hh as (data & E & Hi). exists data. split; [exact E|]. intros T. destruct (Hi T) as (l & V & G & P).
  exists l. split; [exact V|]. split; [exact G|]. intros i Ii. apply IH; [now apply P|lia].
Qed.

Lemma upload_entries_outcome es : (forall e, In e es -> exists data, src (entry_digest e) = Some data) ->
  forall c, outcome src (fun ok => ok = true) (upload_entries H es c).
Proof.
  induction es as [|e r IH]; intros P c; cbn [upload_entries outcome]; [reflexivity|].
  destruct (P e (or_introl eq_refl)) as [data ->]. apply outcome_bind. eapply outcome_impl; [|apply update_outcome]. cbn beta.
  intros [c'|] N; [|congruence]. apply IH. intros e' He'. apply P. now right.
Qed.
Lemma verify_trees_outcome rec n es :
  (forall items, (forall e, In e items -> holds n (entry_digest e)) -> outcome src (fun ok => ok = true) (rec items)) ->
  (forall e, In e es -> holds (S n) (entry_digest e)) -> outcome src (fun ok => ok = true) (verify_trees check rec es).
Proof.
  intros R. induction es as [|e r IH]; intros P; cbn [verify_trees]; [reflexivity|].
  assert (P' : forall e', In e' r -> holds (S n) (entry_digest e')) by (intros e' He'; apply P; now right).
  destruct (IsTreeObject (fst (snd e))) eqn:T; [|exact (IH P')]. cbn [outcome].
  destruct (holds_items n _ (P e (or_introl eq_refl))) as (data & -> & Hi). destruct (Hi T) as (items & -> & Pi).
  apply outcome_bind. eapply outcome_impl; [|exact (R items Pi)]. cbn beta. intros ok ->. exact (IH P').
Qed.

Lemma select_entry ms (tree : list (string * (otype * string))) e :
  In e (select ms (map (fun e => (entry_digest e, e)) tree)) -> In e tree.
Proof.
  intros X. apply select_In in X. destruct X as (d & _ & X). apply in_map_iff in X. destruct X as (e' & X & He').
  assert (E := f_equal snd X). cbn in E. now subst e'.
Qed.

Lemma verify_outcome fuel : forall tree, (forall e, In e tree -> holds fuel (entry_digest e)) ->
  outcome src (fun ok => ok = true) (VerifyOrUploadTree H check (S fuel) tree).
Proof.
  induction fuel as [|f IH]; intros tree P.
  - destruct tree as [|e r]; [|destruct (P e (or_introl eq_refl))]. cbn. intros ms I. destruct ms as [|d ms]; [|destruct (I d (or_introl eq_refl))].
    reflexivity.
  - change (VerifyOrUploadTree H check (S (S f)) tree) with
      (let back := map (fun e => (entry_digest e, e)) tree in
      GetMissing (dedup (map fst back)) (fun ms =>
        let missing := select ms back in
        bind (verify_trees check (VerifyOrUploadTree H check (S f)) missing) (fun ok =>
          if ok then upload_entries H missing [] else Ret false))). cbn zeta. cbn [outcome]. intros ms I.
    apply outcome_bind. eapply outcome_impl; [|apply (verify_trees_outcome _ f)].
    + cbn beta. intros ok ->. apply upload_entries_outcome. intros e He. destruct (P e (select_entry _ _ _ He)) as (data & E & _). eauto.
    + exact IH.
    + intros e He. exact (P e (select_entry _ _ _ He)).
Qed.

Lemma git_artifact_outcome n fuel t id : holds n (IsTreeObject t, id) -> n <= fuel ->
  outcome src (fun ok => ok = true) (VerifyOrUploadGitArtifact H check fuel t id).
Proof.
  intros P L. apply (holds_mono _ fuel) in P; [|exact L]. destruct fuel as [|f]; [destruct P|]. unfold VerifyOrUploadGitArtifact.
  destruct (holds_items f _ P) as (data & E & Hi). cbn [fst] in Hi. destruct (IsTreeObject t).
  - cbn [outcome]. rewrite E. destruct (Hi eq_refl) as (items & -> & Pi). apply outcome_bind.
    eapply outcome_impl; [|exact (verify_outcome f items Pi)]. cbn beta. intros ok ->. cbn [outcome]. rewrite E. reflexivity.
  - cbn [outcome]. rewrite E. reflexivity.
Qed.

Lemma git_loop_outcome rec n es :
  (forall items, (forall e, In e items -> holds n (entry_digest e)) -> outcome src (fun ok => ok = true) (rec items)) ->
  (forall e, In e es -> holds (S n) (entry_digest e)) ->
  forall c, outcome src (fun ok => ok = true) (git_loop H check rec es c).
Proof.
  intros R. induction es as [|e r IH]; intros P c; cbn [git_loop]; [reflexivity|].
  assert (P' : forall e', In e' r -> holds (S n) (entry_digest e')) by (intros e' He'; apply P; now right).
  destruct (holds_items n _ (P e (or_introl eq_refl))) as (data & E & Hi).
  assert (A : outcome src (fun ok => ok = true) (bind (UpdateContainerAndUpload H c (FromMemory (fst (snd e)) data))
            (fun c => match c with Some c' => git_loop H check rec r c' | None => Ret false end))).
  { apply outcome_bind. eapply outcome_impl; [|apply update_outcome]. cbn beta. intros [c'|] N; [|congruence]. exact (IH P' c'). }
  destruct (IsTreeObject (fst (snd e))) eqn:T; cbn [outcome]; rewrite E; [|exact A].
  destruct (Hi T) as (items & -> & Pi). apply outcome_bind. eapply outcome_impl; [|exact (R items Pi)]. cbn beta. intros ok ->.
  cbn [outcome]. rewrite E. exact A.
Qed.

Lemma git_retrieve_outcome fuel : forall infos, (forall e, In e infos -> holds fuel (entry_digest e)) ->
  outcome src (fun ok => ok = true) (GitRetrieveToCas H check (S fuel) infos).
Proof.
  induction fuel as [|f IH]; intros infos P.
  - destruct infos as [|e r]; [|destruct (P e (or_introl eq_refl))]. cbn. intros ms I. destruct ms as [|d ms]; [|destruct (I d (or_introl eq_refl))].
    reflexivity.
  - change (GitRetrieveToCas H check (S (S f)) infos) with
      (let back := map (fun e => (entry_digest e, e)) infos in
      GetMissing (dedup (map fst back)) (fun ms => git_loop H check (GitRetrieveToCas H check (S f)) (select ms back) [])).
    cbn zeta. cbn [outcome]. intros ms I. apply (git_loop_outcome _ f); [exact IH|].
    intros e He. exact (P e (select_entry _ _ _ He)).
Qed.

Lemma local_loop_outcome rec n es :
  (forall items, (forall e, In e items -> holds n (entry_digest e)) -> outcome src (fun ok => ok = true) (rec items)) ->
  (forall e, In e es -> holds (S n) (entry_digest e)) ->
  forall c, outcome src (fun ok => ok = true) (local_loop H check rec es c).
Proof.
  intros R. induction es as [|e r IH]; intros P c; cbn [local_loop]; [reflexivity|].
  assert (P' : forall e', In e' r -> holds (S n) (entry_digest e')) by (intros e' He'; apply P; now right).
  destruct (holds_items n _ (P e (or_introl eq_refl))) as (data & E & Hi).
  destruct (IsTreeObject (fst (snd e))) eqn:T; cbn [outcome]; rewrite E; [|exact (IH P' _)].
  unfold direct_entries. destruct (Hi T) as (items & -> & Pi). apply outcome_bind. eapply outcome_impl; [|exact (R items Pi)]. cbn beta. intros ok ->.
  cbn [outcome]. rewrite E. exact (IH P' _).
Qed.

Lemma local_retrieve_outcome fuel : forall infos, (forall e, In e infos -> holds fuel (entry_digest e)) ->
  outcome src (fun ok => ok = true) (LocalRetrieveToCas H check (S fuel) infos).
Proof.
  induction fuel as [|f IH]; intros infos P.
  - destruct infos as [|e r]; [|destruct (P e (or_introl eq_refl))]. cbn. intros ms I. destruct ms as [|d ms]; [|destruct (I d (or_introl eq_refl))].
    reflexivity.
  - change (LocalRetrieveToCas H check (S (S f)) infos) with
      (let back := map (fun e => (entry_digest e, e)) infos in
      GetMissing (dedup (map fst back)) (fun ms => local_loop H check (LocalRetrieveToCas H check (S f)) (select ms back) [])).
    cbn zeta. cbn [outcome]. intros ms I. apply (local_loop_outcome _ f); [exact IH|].
    intros e He. exact (P e (select_entry _ _ _ He)).
Qed.

End H.
