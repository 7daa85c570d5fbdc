(** More lemmas about servers: what is read, and what succeeds. *)
From Coq Require Import String Ascii NArith List Bool Arith Lia.
From Verif Require Import Describe.Model Remote.Names Remote.NamesSpec Remote.NamesProofs Remote.Stream Remote.StreamSpec
  Remote.StreamProofs Remote.StreamProps Remote.Client Remote.ClientSpec Remote.ClientProofs.
From Verif Require Import GitTree.Model Storage.Model Storage.Spec Storage.Facts Storage.Props Remote.Server Remote.ServerSpec
  Remote.ServerProofs.
Import ListNotations.
Local Open Scope string_scope.
Local Open Scope list_scope.
Local Open Scope nat_scope.

Lemma same_names : forall t x k d d', FromBazel t (mkWire (w_hash x) k) = Some d -> FromBazel t x = Some d' ->
  d_hash d = d_hash d' /\ d_tree d = d_tree d'.
Proof.
  intros t x k d d' H H'. unfold FromBazel in *. cbn [w_hash w_size] in H.
  match type of H with (if ?c then _ else _) = _ => destruct c end; [|discriminate H].
  injection H as <-. injection H' as <-. split; reflexivity.
Qed.

Section More.
Variable S : config.
Variable n : nat.
Hypothesis S0 : sane S.
Notation conf := (confirmed S n).

Lemma lookup_same : forall d, lookup_of d = lookup_op (type_of (d_tree d)) (d_hash d) false.
Proof. intros d. unfold lookup_of, lookup_op. now rewrite type_tree. Qed.
Lemma kind_same : forall d data, cfg_hash S (kind_for (type_of (d_tree d))) data = hash_for S (d_tree d) data.
Proof. intros d data. unfold kind_for, hash_for. now rewrite type_tree. Qed.

Lemma no_collections : forall acts, no_collection acts -> collections acts = 0.
Proof.
  intros acts NC. unfold collections. induction acts as [|a r IH]; [reflexivity|]. cbn [filter].
  rewrite (NC a (or_introl eq_refl)). apply IH. intros x Hx. apply NC. now right.
Qed.
Lemma no_drop_app : forall a b, no_drop a -> no_collection b -> no_drop (a ++ b).
Proof.
  intros a b H NC x Hx D. apply in_app_or in Hx. destruct Hx as [Hx|Hx]; [exact (H x Hx D)|].
  specialize (NC x Hx). destruct x; cbn in *; try contradiction. discriminate NC.
Qed.

(** One lookup. *)
Lemma lookup_handled {A} : forall d (kk : answer -> plan A) acts a acts',
  handles S n (Ask (lookup_of d) kk) acts a acts' -> history S n acts' ->
  exists b r, no_collection b /\ handles S n (kk r) (acts ++ b) a acts' /\
    (forall data, found r = Some data -> hash_for S (d_tree d) data = d_hash d) /\
    (forall first since, acts = first ++ since -> conf first since d -> collections since < n -> no_drop since ->
       found r <> None).
Proof.
  intros d kk acts a acts' H HY. inversion H as [|o k acts0 others r b0 acts0' NC R H1]; subst. clear H.
  exists (Start (lookup_of d) :: others), r. split; [intros x [<-|Hx]; [reflexivity|now apply NC]|].
  split; [exact H1|]. destruct (handles_grow S n _ _ _ _ H1) as (b & -> & _).
  assert (HY1 := history_app S n _ _ HY). clear HY. rewrite lookup_same in *.
  split.
  - intros data F. rewrite <- kind_same. assert (E := started_ensures S n S0 _ _ _ _ HY1 NC R).
    unfold lookup_op, kind_for in *. rewrite type_tree in *. destruct (d_tree d); cbn in E; destruct E as (v & -> & E);
      cbn [found] in F; subst v; [destruct E as (_ & (E & _) & _)|destruct E as (_ & E & _)]; exact E.
  - intros first since E (a1 & b1 & th & o & r0 & t & -> & RT & TO & IT) CO ND. subst acts.
    rewrite app_assoc in HY1, R. rewrite <- !app_assoc in HY1, R.
    assert (HY2 : history S n ((first ++ a1) ++ b1 ++ Start (lookup_op (type_of (d_tree d)) (d_hash d) false) :: others)).
    { rewrite <- !app_assoc. exact HY1. }
    assert (CB : collections b1 < n) by (rewrite (collections_app) in CO; lia).
    assert (NB : no_drop b1) by (intros x Hx; apply ND, in_or_app; now right).
    destruct (C26_survives S n (first ++ a1) b1 others th o r0 t (d_hash d) (type_of (d_tree d)) (d_hash d) false r S0 HY2 CB NB NC RT TO)
      as (data & -> & _); [| |discriminate].
    + left. split; [now rewrite type_tree|reflexivity].
    + rewrite <- !app_assoc. rewrite <- !app_assoc in R. exact R.
Qed.

(** Confirmed objects stay confirmed while a handler works. *)
Notation held := (still_there S n).
Lemma held_more : forall acts b d, held acts d -> no_collection b -> held (acts ++ b) d.
Proof.
  intros acts b d (first & since & -> & C & CO & ND) NC. exists first, (since ++ b).
  split; [now rewrite <- app_assoc|]. split; [now apply confirmed_more|].
  split; [rewrite collections_app, (no_collections b NC); lia|now apply no_drop_app].
Qed.

Lemma read_handled : forall q done acts a acts',
  handles S n (server_BatchReadBlobs q done) acts a acts' -> history S n acts' ->
  forall l, a = inl l -> exists m, l = done ++ m /\
    Forall2 (fun x e => fst (fst e) = x /\ exists d, FromBazel GitSHA1 x = Some d /\
      (snd (fst e) = OK -> hash_for S (d_tree d) (snd e) = d_hash d) /\ (held acts d -> snd (fst e) = OK)) q m.
Proof.
  induction q as [|x q IH]; intros done acts a acts' H HY l El; cbn [server_BatchReadBlobs] in H.
  - assert (E : a = inl done) by (inversion H; reflexivity). rewrite E in El. injection El as <-. exists []. rewrite app_nil_r. split; [reflexivity|constructor].
  - destruct (FromBazel GitSHA1 x) as [d|] eqn:FB; [|assert (E : a = inr (Other 3)) by (inversion H; reflexivity); congruence].
    destruct (lookup_handled d _ _ _ _ H HY) as (b & r & NC & H1 & A1 & A2).
    destruct (IH _ _ _ _ H1 HY l El) as (m & -> & F).
    eexists (_ :: m). split; [rewrite <- app_assoc; reflexivity|]. constructor.
    + destruct (found r) as [data|] eqn:FO; cbn [fst snd]; (split; [reflexivity|]); exists d; (split; [exact FB|]).
      * split; [intros _; now apply A1|reflexivity].
      * split; [discriminate|]. intros (first & since & E & C & CO & ND). exfalso. exact (A2 first since E C CO ND eq_refl).
    + clear - F NC. induction F as [|y e q m G F IHF]; constructor; [|exact IHF]. clear - G NC. revert G. intros (E1 & d' & E2 & E3 & E4). split; [exact E1|]. exists d'.
      split; [exact E2|]. split; [exact E3|]. intros HE. apply E4. now apply held_more.
Qed.

Lemma find_complete : forall q done acts a acts',
  handles S n (server_FindMissingBlobs q done) acts a acts' -> history S n acts' ->
  exists m, a = inl (done ++ m) /\ forall x, In x m -> forall d, FromBazel GitSHA1 x = Some d -> ~ held acts d.
Proof.
  induction q as [|x q IH]; intros done acts a acts' H HY; cbn [server_FindMissingBlobs] in H.
  - inversion H; subst. exists []. rewrite app_nil_r. split; [reflexivity|]. intros x [].
  - destruct (FromBazel GitSHA1 x) as [d|] eqn:FB.
    + destruct (lookup_handled d _ _ _ _ H HY) as (b & r & NC & H1 & A1 & A2).
      destruct (IH _ _ _ _ H1 HY) as (m & -> & F).
      assert (F' : forall x, In x m -> forall d, FromBazel GitSHA1 x = Some d -> ~ held acts d).
      { intros y Hy d' D' HE. apply (F y Hy d' D'). now apply held_more. }
      destruct (found r) as [data|] eqn:FO; [exists m; auto|]. exists (x :: m). split; [now rewrite <- app_assoc|].
      intros y [<-|Hy]; [|now apply F']. intros d' D' (first & since & E & C & CO & ND).
      rewrite FB in D'. injection D' as <-. exact (A2 first since E C CO ND eq_refl).
    + destruct (IH _ _ _ _ H HY) as (m & -> & F). exists (x :: m). split; [now rewrite <- app_assoc|].
      intros y [<-|Hy]; [congruence|now apply F].
Qed.

Lemma stream_handled : forall k name offset acts a acts' q d,
  read_FromString name = Some q -> FromBazel GitSHA1 (rr_digest q) = Some d ->
  handles S n (server_Read k name offset) acts a acts' -> history S n acts' ->
  (exists data, hash_for S (d_tree d) data = d_hash d /\ a = send_all k (FileSource data (fun _ => true)) offset) \/
  (a = ([], Other 5) /\ ~ held acts d).
Proof.
  intros k name offset acts a acts' q d Q D H HY. unfold server_Read in H. rewrite Q, D in H.
  destruct (lookup_handled d _ _ _ _ H HY) as (b & r & NC & H1 & A1 & A2).
  destruct (found r) as [data|] eqn:FO; inversion H1; subst.
  - left. eauto.
  - right. split; [reflexivity|]. intros (first & since & E & C & CO & ND). exact (A2 first since E C CO ND eq_refl).
Qed.

(** Uploads succeed. *)
Lemma young_more : forall acts b t i, history S n (acts ++ b) -> no_collection b ->
  avail (gen_at (disk (reached S n acts)) 0) t i -> avail (gen_at (disk (reached S n (acts ++ b))) 0) t i.
Proof.
  intros acts b t i HY NC A.
  destruct (survive S n S0 acts b 0 HY) as (k & K & SV).
  - intros x Hx D. specialize (NC x Hx). destruct x; cbn in *; try contradiction. discriminate NC.
  - rewrite (no_collections b NC). destruct HY as (Np & _). lia.
  - rewrite (no_collections b NC) in K. assert (k = 0) as -> by lia. now apply SV.
Qed.

Lemma add_complete : forall d data acts c acts',
  handles S n (AddDataToCAS d data) acts c acts' -> history S n acts' ->
  hash_for S (d_tree d) data = d_hash d -> (d_size d = 0%N \/ d_size d = N.of_nat (String.length data)) ->
  (d_tree d = true -> exists es, cfg_parse_tree S data = Some es /\ entries_avail (gen_at (disk (reached S n acts)) 0) es) ->
  c = OK /\ avail (gen_at (disk (reached S n acts')) 0) (type_of (d_tree d)) (d_hash d).
Proof.
  intros d data acts c acts' H HY HH SZ TR.
  assert (SC : size_consistent d data = true).
  { unfold size_consistent. destruct SZ as [->| ->]; [reflexivity|]. now rewrite N.eqb_refl, orb_true_r. }
  unfold AddDataToCAS in H. destruct (d_tree d) eqn:ET; inversion H as [|o k acts0 others r b0 acts0' NC R H1]; subst; clear H.
  - destruct (handles_grow S n _ _ _ _ H1) as (b & E & NB). subst acts'. assert (HY1 := history_app S n _ _ HY).
    assert (EN := started_ensures S n S0 _ _ _ _ HY1 NC R).
    cbn in EN. destruct EN as (ok & -> & E1 & E2). destruct (TR eq_refl) as (es & PT & EA).
    assert (ok = true) as ->.
    { apply (E2 0 es); [destruct HY as (Np & _); lia|exact HH|exact PT|exact EA]. }
    inversion H1 as [x y E3 E4|]; subst. rewrite SC. split; [reflexivity|]. left. apply (E1 eq_refl).
  - destruct (handles_grow S n _ _ _ _ H1) as (b & E & NB). subst acts'. assert (HY1 := history_app S n _ _ HY).
    assert (EN := started_ensures S n S0 _ _ _ _ HY1 NC R).
    cbn in EN. destruct EN as (-> & E1 & _). unfold hash_for in HH. rewrite HH in E1, H1.
    rewrite String.eqb_refl, SC in H1. cbn [andb] in H1. inversion H1 as [x y E3 E4|]; subst. split; [reflexivity|].
    left. unfold present. cbn [type_of] in *. congruence.
Qed.

Lemma valid_weaken : forall q (P Q : otype -> id -> Prop), (forall t i, P t i -> Q t i) ->
  valid_upload S P q -> valid_upload S Q q.
Proof.
  induction q as [|e q IH]; intros P Q PQ H; cbn [valid_upload] in *; [exact H|]. destruct H as [H1 H2]. split.
  - destruct H1 as (d & D1 & D2 & D3 & D4). exists d. split; [exact D1|]. split; [exact D2|]. split; [exact D3|].
    intros T. destruct (D4 T) as (es & E1 & E2). exists es. split; [exact E1|]. eauto.
  - eapply IH; [|exact H2]. cbn. intros t i [X|X]; auto.
Qed.

Lemma update_complete : forall q done acts a acts',
  handles S n (server_BatchUpdateBlobs q done) acts a acts' -> history S n acts' ->
  valid_upload S (avail (gen_at (disk (reached S n acts)) 0)) q ->
  a = inl (done ++ map (fun e => (fst e, OK)) q).
Proof.
  induction q as [|[x data] q IH]; intros done acts a acts' H HY V; cbn [server_BatchUpdateBlobs] in H.
  - inversion H; subst. now rewrite app_nil_r.
  - cbn [valid_upload] in V. destruct V as [(d & D1 & D2 & D3 & D4) V]. cbn [fst snd] in *. rewrite D1 in H.
    apply handles_then in H. destruct H as (c & acts1 & H1 & H2).
    destruct (handles_grow S n _ _ _ _ H2) as (b2 & E2 & NB2). assert (HY1 : history S n acts1) by (subst acts'; exact (history_app S n _ _ HY)).
    destruct (handles_grow S n _ _ _ _ H1) as (b1 & E1 & NB1).
    destruct (add_complete d data acts c acts1 H1 HY1 D2 D3) as [-> AV].
    { intros T. destruct (D4 T) as (es & PT & EA). exists es. split; [exact PT|]. intros i t0 ts t Hi Ht. exact (EA i t0 ts t Hi Ht). }
    rewrite (IH _ _ _ _ H2 HY); [rewrite <- app_assoc; reflexivity|].
    eapply valid_weaken; [|exact V]. cbn. intros t i [A|(d' & X1 & -> & X2)].
    + subst acts1. now apply young_more.
    + cbn [fst] in X1. rewrite D1 in X1. injection X1 as <-. eapply avail_kind; [|exact AV]. rewrite type_tree. exact X2.
Qed.

Lemma add_content : forall d data acts acts',
  handles S n (AddDataToCAS d data) acts OK acts' -> history S n acts' ->
  hash_for S (d_tree d) data = d_hash d /\ (d_size d = 0%N \/ d_size d = N.of_nat (String.length data)).
Proof.
  intros d data acts acts' H HY.
  assert (SC : size_consistent d data = true -> d_size d = 0%N \/ d_size d = N.of_nat (String.length data)).
  { unfold size_consistent. intros X. apply orb_true_iff in X. destruct X as [X|X]; apply N.eqb_eq in X; auto. }
  unfold AddDataToCAS in H. destruct (d_tree d) eqn:ET; inversion H as [|o k acts0 others r b0 acts0' NC R H1]; subst; clear H.
  - destruct (handles_grow S n _ _ _ _ H1) as (b & E & NB). subst acts'. assert (HY1 := history_app S n _ _ HY).
    assert (EN := started_ensures S n S0 _ _ _ _ HY1 NC R).
    cbn in EN. destruct EN as (ok & -> & E1 & _). destruct ok; [|inversion H1].
    destruct (E1 eq_refl) as (_ & (E2 & _) & _). destruct (size_consistent d data); [|inversion H1]. split; [exact E2|auto].
  - destruct (handles_grow S n _ _ _ _ H1) as (b & E & NB). subst acts'. assert (HY1 := history_app S n _ _ HY).
    assert (EN := started_ensures S n S0 _ _ _ _ HY1 NC R).
    cbn in EN. destruct EN as (-> & _). destruct (String.eqb_spec (cfg_hash S KBlob data) (d_hash d)) as [E|E]; [|inversion H1].
    destruct (size_consistent d data); [|inversion H1]. split; [exact E|auto].
Qed.

Lemma update_content : forall q done acts l acts' e,
  handles S n (server_BatchUpdateBlobs q done) acts (inl l) acts' -> history S n acts' -> In e q ->
  exists d, FromBazel GitSHA1 (fst e) = Some d /\ hash_for S (d_tree d) (snd e) = d_hash d /\
    (d_size d = 0%N \/ d_size d = N.of_nat (String.length (snd e))).
Proof.
  induction q as [|[x data] q IH]; intros done acts l acts' e H HY He; [destruct He|]. cbn [server_BatchUpdateBlobs] in H.
  destruct (FromBazel GitSHA1 x) as [d|] eqn:FB; [|inversion H].
  apply handles_then in H. destruct H as (c & acts1 & H1 & H2).
  destruct (handles_grow S n _ _ _ _ H2) as (b2 & E2 & NB2). assert (HY1 : history S n acts1) by (subst acts'; exact (history_app S n _ _ HY)).
  destruct c; try (inversion H2; fail). destruct He as [<-|He].
  - exists d. split; [exact FB|]. exact (add_content d data acts acts1 H1 HY1).
  - exact (IH _ _ _ _ e H2 HY He).
Qed.

(** Splitting and splicing. *)
Hypothesis VH : forall k b, valid_input GitSHA1 (cfg_hash S k b) false = true.
Lemma all_sent : forall l, all_digests (map (fun c => ToBazel GitSHA1 (mkDigest (cfg_hash S KBlob c) false 0)) l) =
  Some (map (fun c => mkDigest (cfg_hash S KBlob c) false 0) l).
Proof.
  induction l as [|c l IH]; [reflexivity|]. cbn [map all_digests].
  rewrite from_to by (cbn [d_hash d_tree]; apply VH). now rewrite IH.
Qed.

Lemma split_splice : forall x d acts chunks acts1 acts2 a acts',
  FromBazel GitSHA1 x = Some d ->
  handles S n (server_SplitBlob x) acts (inl chunks) acts1 ->
  collections acts2 < n -> no_drop acts2 ->
  handles S n (server_SpliceBlob x chunks) (acts1 ++ acts2) a acts' -> history S n acts' ->
  a = inl (ToBazel GitSHA1 (mkDigest (d_hash d) (d_tree d) 0)) /\
  exists data, hash_for S (d_tree d) data = d_hash d /\
    chunks = map (fun c => ToBazel GitSHA1 (mkDigest (hash_for S false c) false 0)) (cfg_chunker S data).
Proof.
  intros x d acts chunks acts1 acts2 a acts' FB H1 CO ND H2 HY.
  unfold server_SplitBlob in H1. rewrite FB in H1. unfold server_SpliceBlob in H2. rewrite FB in H2.
  inversion H1 as [|o1 k1 a1 others1 r1 b1 a1' NC1 R1 H1']; subst; clear H1.
  destruct r1 as [v|v|v|v|v|v]; try (inversion H1'; fail). destruct v as [ps|]; inversion H1' as [y z E1 E2|]; subst; clear H1'.
  destruct (handles_grow S n _ _ _ _ H2) as (b & E & NB). subst acts'.
  assert (HY0 := history_app S n _ _ HY). assert (HY1 := history_app S n _ _ HY0).
  assert (X : exists data, hash_for S (d_tree d) data = d_hash d /\ ps = map (cfg_hash S KBlob) (cfg_chunker S data)).
  { assert (EN := started_ensures S n S0 _ _ _ _ HY1 NC1 R1). unfold hash_for. destruct (d_tree d); cbn in EN;
      destruct EN as (v & Ev & D); injection Ev as <-; destruct D as (dat & D1 & _ & D2 & _); exists dat; auto. }
  destruct X as (data & HD & ->).
  split; [|exists data; split; [exact HD|]; rewrite map_map; reflexivity].
  rewrite map_map, all_sent in H2.
  assert (MH : map d_hash (map (fun c => mkDigest (cfg_hash S KBlob c) false 0) (cfg_chunker S data)) =
    map (cfg_hash S KBlob) (cfg_chunker S data)) by (rewrite map_map; reflexivity).
  rewrite MH in H2.
  inversion H2 as [|o2 k2 a2 others2 r2 b2 a2' NC2 R2 H2']; subst; clear H2.
  destruct (handles_grow S n _ _ _ _ H2') as (b3 & E3 & NB3). rewrite E3 in HY. assert (HY2 := history_app S n _ _ HY).
  clear E3 NB3 HY. rewrite <- app_assoc in HY2, R2.
  destruct (d_tree d) eqn:ET.
  - destruct (C24_split_splice_tree S n _ acts2 others2 _ (d_hash d) _ r2 S0 HY2 CO ND NC2 R1 R2) as [-> _].
    inversion H2'; subst. reflexivity.
  - destruct (C24_split_splice S n _ acts2 others2 _ (d_hash d) _ false r2 S0 HY2 CO ND NC2 R1 R2) as [-> _].
    inversion H2'; subst. reflexivity.
Qed.

End More.
