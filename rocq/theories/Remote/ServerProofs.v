(** Lemmas about servers. *)
From Coq Require Import String Ascii NArith List Bool Arith Lia.
From Verif Require Import Describe.Model Remote.Names Remote.NamesSpec Remote.NamesProofs Remote.Stream Remote.StreamSpec
  Remote.StreamProofs Remote.StreamProps Remote.Client Remote.ClientSpec Remote.ClientProofs.
From Verif Require Import GitTree.Model Storage.Model Storage.Spec Storage.Facts Storage.Props Remote.Server Remote.ServerSpec.
Import ListNotations.
Local Open Scope string_scope.
Local Open Scope list_scope.
Local Open Scope nat_scope.

(** ** Threads keep their operations *)
Lemma advance_ops : forall l t ok σ, map fst (fst (advance l t ok σ)) = map fst l.
Proof.
  induction l as [|[o m] r IH]; intros t ok σ; [reflexivity|]. cbn [advance]. destruct t as [|t].
  - destruct m as [a|X act k]; [reflexivity|]. destruct (act ok σ) as [x σ']. reflexivity.
  - specialize (IH t ok σ). destruct (advance r t ok σ) as [r' σ']. cbn [fst] in IH.
    destruct m; cbn [fst map]; now rewrite IH.
Qed.

Section Proofs.
Variable S : config.
Variable n : nat.

Lemma thread_op : forall others Σ th o m, no_collection others -> nth_error (threads Σ) th = Some (o, m) ->
  exists m', nth_error (threads (perform_all S others Σ)) th = Some (o, m').
Proof.
  induction others as [|a others IH]; intros Σ th o m NC E; [eauto|].
  assert (NC' : no_collection others) by (intros x Hx; apply NC; now right).
  cbn [perform_all fold_left]. change (fold_left (perform S) others (perform S Σ a)) with (perform_all S others (perform S Σ a)).
  specialize (NC a (or_introl eq_refl)). destruct a as [o'|t ok|nr al f e b oks]; [| |discriminate NC].
  - apply (IH _ _ _ m NC'). cbn [perform threads]. rewrite nth_error_app1; [exact E|]. apply nth_error_Some. congruence.
  - cbn [perform]. assert (X := advance_ops (threads Σ) t ok (disk Σ)).
    destruct (advance (threads Σ) t ok (disk Σ)) as [l σ]. cbn [fst] in X.
    assert (Y : nth_error (map fst l) th = Some o) by (rewrite X; exact (map_nth_error fst _ _ E)).
    destruct (nth_error l th) as [[o2 m2]|] eqn:Z.
    + rewrite (map_nth_error fst _ _ Z) in Y. injection Y as ->. exact (IH (mkSystem σ l) th o m2 NC' Z).
    + exfalso. apply nth_error_None in Z. assert (th < length (map fst l)) by (apply nth_error_Some; congruence).
      rewrite map_length in H. lia.
Qed.

Lemma started_op : forall acts o others o' m, no_collection others ->
  nth_error (threads (reached S n (acts ++ Start o :: others))) (length (threads (reached S n acts))) = Some (o', m) ->
  o' = o.
Proof.
  intros acts o others o' m NC E. rewrite (reached_app S n) in E. cbn [perform_all fold_left] in E.
  destruct (thread_op others (perform S (reached S n acts) (Start o)) (length (threads (reached S n acts))) o (program S o) NC)
    as (m' & E').
  { cbn [perform threads]. rewrite nth_error_app2 by lia. now rewrite Nat.sub_diag. }
  unfold perform_all in E'. rewrite E' in E. now injection E as <-.
Qed.

(** ** Handlers *)
Lemma handles_grow {A} : forall (p : plan A) acts a acts', handles S n p acts a acts' ->
  exists b, acts' = acts ++ b /\ no_collection b.
Proof.
  intros p acts a acts' H. induction H as [a acts|o k acts others r a acts' NC R H (b & -> & NB)].
  - exists []. split; [now rewrite app_nil_r|]. intros x [].
  - exists (Start o :: others ++ b). split; [now rewrite <- app_assoc|].
    intros x [<-|Hx]; [reflexivity|]. apply in_app_or in Hx. destruct Hx; auto.
Qed.

Lemma handles_then {A B} : forall (p : plan A) (f : A -> plan B) acts b acts',
  handles S n (then_do p f) acts b acts' ->
  exists a acts1, handles S n p acts a acts1 /\ handles S n (f a) acts1 b acts'.
Proof.
  induction p as [a|o k IH]; intros f acts b acts' H; cbn [then_do] in H.
  - exists a, acts. split; [constructor|exact H].
  - inversion H as [|o0 k0 acts0 others r b0 acts0' NC R H1]; subst. destruct (IH r f _ _ _ H1) as (a & acts1 & A1 & A2).
    exists a, acts1. split; [|exact A2]. now apply (handles_ask S n o k acts others r).
Qed.

Lemma run_handles {A} : forall (p : plan A) w r w', run_plan S n p w = (r, w') ->
  start w' = start w /\ (exists b, since w' = since w ++ b) /\
  (forall a, r = Some a -> handles S n p (past w) a (past w')).
Proof.
  induction p as [a|o k IH]; intros w r w' E; cbn [run_plan] in E.
  - injection E as <- <-. split; [reflexivity|]. split; [exists []; now rewrite app_nil_r|].
    intros a' X. injection X as <-. constructor.
  - unfold ask in E. destruct (interleaved w) as [|others rest].
    + injection E as <- <-. split; [reflexivity|]. split; [exists []; now rewrite app_nil_r|discriminate].
    + set (w1 := mkWorld (start w) (since w ++ Start o :: others) (requests w) rest) in *.
      destruct (existsb is_collect others) eqn:CO.
      * injection E as <- <-. split; [reflexivity|]. split; [eexists; reflexivity|discriminate].
      * assert (NC : no_collection others).
        { intros x Hx. destruct (is_collect x) eqn:X; [|reflexivity]. exfalso.
          assert (existsb is_collect others = true) by (apply existsb_exists; eauto). congruence. }
        assert (PW : past w1 = past w ++ Start o :: others) by (unfold past; cbn; now rewrite app_assoc).
        destruct (nth_error (threads (reached S n (past w1))) (length (threads (reached S n (past w))))) as [[o' m]|] eqn:NT.
        2:{ injection E as <- <-. split; [reflexivity|]. split; [eexists; reflexivity|discriminate]. }
        destruct m as [x|X act kk].
        2:{ injection E as <- <-. split; [reflexivity|]. split; [eexists; reflexivity|discriminate]. }
        apply IH in E. destruct E as (E1 & (b & E2) & E3). split; [exact E1|]. split.
        { exists (Start o :: others ++ b). rewrite E2. cbn [since w1]. now rewrite <- app_assoc. }
        intros a Ha. specialize (E3 a Ha). rewrite PW in E3, NT. assert (o' = o) as -> by (eapply started_op; eauto).
        eapply handles_ask; eauto.
Qed.

(** ** What the storage told *)
Notation conf := (confirmed S n).
Lemma confirmed_more : forall first acts b d, conf first acts d -> conf first (acts ++ b) d.
Proof.
  intros first acts b d (a & c & th & o & r & t & -> & H). exists a, (c ++ b), th, o, r, t.
  split; [now rewrite <- app_assoc|exact H].
Qed.

Lemma from_size : forall x d, FromBazel GitSHA1 x = Some d -> d_size d = w_size x /\ names (w_hash x) d.
Proof.
  intros x d H. assert (Z : d_size d = w_size x).
  { unfold FromBazel in H. destruct (valid_input _ _ _); [|discriminate H]. now injection H as <-. }
  split; [exact Z|]. unfold names. rewrite Z. destruct x. exact H.
Qed.

Definition told_now (acts : list action) (o : op) (r : answer) (th : nat) : Prop := returned (reached S n acts) th o r.

Lemma confirm : forall first acts others o r th d t,
  returned (reached S n (first ++ acts ++ Start o :: others)) th o r ->
  told o r t (d_hash d) -> IsTreeObject t = d_tree d -> conf first (acts ++ Start o :: others) d.
Proof.
  intros first acts others o r th d t R T I. exists (acts ++ Start o :: others), [], th, o, r, t.
  split; [now rewrite app_nil_r|]. auto.
Qed.

Definition type_of (tree : bool) : otype := if tree then Tree else File.
Lemma type_tree : forall b, IsTreeObject (type_of b) = b.
Proof. intros []; reflexivity. Qed.
Lemma lookup_told : forall d r data, found r = Some data -> told (lookup_of d) r (type_of (d_tree d)) (d_hash d).
Proof.
  intros d r data F. destruct r; try discriminate F. cbn in F. subst. unfold lookup_of. destruct (d_tree d); cbn; auto.
Qed.

Lemma find_handled : forall q done first acts a acts',
  handles S n (server_FindMissingBlobs q done) (first ++ acts) a acts' ->
  exists b m, acts' = first ++ acts ++ b /\ a = inl (done ++ m) /\ (forall x, In x m -> In x q) /\
    forall x, In x q -> In x m \/ exists d, FromBazel GitSHA1 x = Some d /\ conf first (acts ++ b) d.
Proof.
  induction q as [|x q IH]; intros done first acts a acts' H; cbn [server_FindMissingBlobs] in H.
  - inversion H; subst. exists [], []. rewrite !app_nil_r. split; [reflexivity|]. split; [reflexivity|].
    split; intros x [].
  - destruct (FromBazel GitSHA1 x) as [d|] eqn:FB.
    + inversion H as [|o k acts0 others r b0 acts0' NC R H1]; subst. clear H.
      rewrite <- app_assoc in R, H1.
      destruct (IH _ first (acts ++ Start (lookup_of d) :: others) _ _ H1) as (b & m & E1 & E2 & E3 & E4). clear IH H1.
      exists (Start (lookup_of d) :: others ++ b), (match found r with Some _ => m | None => x :: m end).
      rewrite <- app_assoc in E1, E4. cbn [app] in E1, E4.
      split; [exact E1|]. split; [rewrite E2; destruct (found r); [reflexivity|now rewrite <- app_assoc]|].
      split.
      * intros y Hy. destruct (found r); [right; auto|]. destruct Hy as [<-|Hy]; [now left|right; auto].
      * intros y [<-|Hy].
        -- destruct (found r) as [data|] eqn:F; [|left; now left]. right. exists d. split; [exact FB|].
           assert (C := confirm first acts others _ _ _ _ _ R (lookup_told d r data F) (type_tree _)).
           apply (confirmed_more _ _ b) in C. rewrite <- app_assoc in C. exact C.
        -- destruct (E4 y Hy) as [G|G]; [left; destruct (found r); [exact G|now right]|now right].
    + destruct (IH _ first acts _ _ H) as (b & m & E1 & E2 & E3 & E4).
      exists b, (x :: m). split; [exact E1|]. split; [now rewrite E2, <- app_assoc|]. split.
      * intros y [<-|Hy]; [now left|right; auto].
      * intros y [<-|Hy]; [left; now left|]. destruct (E4 y Hy) as [G|G]; [left; now right|now right].
Qed.

Lemma add_handled : forall d data first acts c acts',
  handles S n (AddDataToCAS d data) (first ++ acts) c acts' ->
  exists b, acts' = first ++ acts ++ b /\ (c = OK -> conf first (acts ++ b) d).
Proof.
  intros d data first acts c acts' H. unfold AddDataToCAS in H. destruct (d_tree d) eqn:TR;
    inversion H as [|o k acts0 others r b0 acts0' NC R H1]; subst; clear H; rewrite <- app_assoc in R, H1.
  - exists (Start (OAddTree (d_hash d) data) :: others).
    assert (X : handles S n (match r with ADone true => Done (if size_consistent d data then OK else Other 3) | _ => Done (Other 9) end)
      (first ++ acts ++ Start (OAddTree (d_hash d) data) :: others) c acts' ->
      acts' = first ++ acts ++ Start (OAddTree (d_hash d) data) :: others /\ (c = OK -> r = ADone true)).
    { intros Y. destruct r as [[|]| | | | |]; inversion Y; subst; split; try reflexivity; intros Z; try discriminate Z; reflexivity. }
    destruct (X H1) as [-> Z]. split; [reflexivity|]. intros ->. specialize (Z eq_refl). subst r.
    apply (confirm first acts others _ _ _ d (type_of true) R); [cbn; auto|now rewrite TR].
  - exists (Start (OStoreBlob data false) :: others).
    assert (X : handles S n (match r with AId (Some i) => Done (if String.eqb i (d_hash d) && size_consistent d data then OK else Other 3)
      | _ => Done (Other 13) end) (first ++ acts ++ Start (OStoreBlob data false) :: others) c acts' ->
      acts' = first ++ acts ++ Start (OStoreBlob data false) :: others /\ (c = OK -> r = AId (Some (d_hash d)))).
    { intros Y. destruct r as [|[i|]| | | |]; inversion Y; subst; split; try reflexivity; intros Z; try discriminate Z.
      destruct (String.eqb_spec i (d_hash d)); [now subst|discriminate Z]. }
    destruct (X H1) as [-> Z]. split; [reflexivity|]. intros ->. specialize (Z eq_refl). subst r.
    apply (confirm first acts others _ _ _ d (type_of false) R); [cbn; auto|now rewrite TR].
Qed.

Lemma update_handled : forall q done first acts a acts',
  handles S n (server_BatchUpdateBlobs q done) (first ++ acts) a acts' ->
  exists b, acts' = first ++ acts ++ b /\
    forall l, a = inl l -> l = done ++ map (fun e => (fst e, OK)) q /\
      forall e, In e q -> exists d, FromBazel GitSHA1 (fst e) = Some d /\ conf first (acts ++ b) d.
Proof.
  induction q as [|[x data] q IH]; intros done first acts a acts' H; cbn [server_BatchUpdateBlobs] in H.
  - inversion H; subst. exists []. rewrite !app_nil_r. split; [reflexivity|]. intros l X. injection X as <-.
    split; [now rewrite ?app_nil_r|]. intros e [].
  - destruct (FromBazel GitSHA1 x) as [d|] eqn:FB.
    2:{ inversion H; subst. exists []. rewrite app_nil_r. split; [reflexivity|discriminate]. }
    apply handles_then in H. destruct H as (c & acts1 & H1 & H2).
    apply add_handled in H1. destruct H1 as (b1 & -> & C1).
    destruct c; try (inversion H2; subst; exists b1; split; [reflexivity|discriminate]).
    specialize (C1 eq_refl).
    destruct (IH _ first (acts ++ b1) _ _ H2) as (b & E1 & E2). exists (b1 ++ b).
    split; [rewrite E1; now rewrite <- app_assoc|]. intros l X. destruct (E2 l X) as [-> E3].
    split; [rewrite <- app_assoc; reflexivity|].
    intros e [<-|He].
    + exists d. split; [exact FB|]. rewrite app_assoc. now apply confirmed_more.
    + destruct (E3 e He) as (d' & D1 & D2). exists d'. split; [exact D1|]. now rewrite app_assoc.
Qed.

Lemma write_handled : forall ms first acts a acts',
  handles S n (server_Write ms) (first ++ acts) a acts' ->
  exists b, acts' = first ++ acts ++ b /\
    (fst a = OK -> exists d, (exists data, server_write GitSHA1 ms = Some (d, data)) /\ conf first (acts ++ b) d).
Proof.
  intros ms first acts a acts' H. unfold server_Write in H. destruct (server_write GitSHA1 ms) as [[d data]|] eqn:SW.
  2:{ inversion H; subst. exists []. rewrite app_nil_r. split; [reflexivity|discriminate]. }
  apply handles_then in H. destruct H as (c & acts1 & H1 & H2). apply add_handled in H1. destruct H1 as (b & -> & C1).
  exists b. destruct c; inversion H2; subst; (split; [reflexivity|]); try discriminate.
  intros _. exists d. eauto.
Qed.

(** ** The server is truthful *)
Variable k : nat.
Variable inst : string.
Notation R := (server S n k inst).
Notation stored := (in_storage S n).

Lemma more_stored : forall w w' b h, start w' = start w -> since w' = since w ++ b -> stored w h -> stored w' h.
Proof.
  intros w w' b h E1 E2 (d & N & C). exists d. split; [exact N|]. rewrite E1, E2. now apply confirmed_more.
Qed.
Lemma run_keeps {A} : forall (p : plan A) w h, stored w h -> stored (snd (run_plan S n p (wait w))) h.
Proof.
  intros p w h H. destruct (run_plan S n p (wait w)) as [r w'] eqn:E. apply run_handles in E.
  destruct E as (E1 & (b & E2) & _). cbn [snd].
  apply (more_stored w w' (before (circumstances w) ++ b)); [exact E1|rewrite E2; cbn; now rewrite <- app_assoc|exact H].
Qed.
Lemma unary_keeps {A} : forall (p : plan (A + code)) w h, stored w h -> stored (snd (unary S n p w)) h.
Proof.
  intros p w h H. apply (run_keeps p) in H. unfold unary. destruct (run_plan S n p (wait w)) as [[r|] w']; exact H.
Qed.
Lemma unary_handles {A} : forall (p : plan (A + code)) w r w', unary S n p w = (inl r, w') ->
  start w' = start w /\ handles S n p (past (wait w)) (inl r) (past w').
Proof.
  intros p w r w' E. unfold unary in E. destruct (run_plan S n p (wait w)) as [[x|] w1] eqn:RP; [|discriminate E].
  apply run_handles in RP. destruct RP as (E1 & _ & E3). destruct (broken (circumstances w)) as [[? c]|]; [discriminate E|].
  injection E as -> <-. split; [exact E1|]. now apply E3.
Qed.

Lemma past_since : forall w first acts b, start w = first -> past w = first ++ acts ++ b -> since w = acts ++ b.
Proof. intros w first acts b <- E. unfold past in E. now apply app_inv_head in E. Qed.

Lemma server_truthful : truthful world R stored GitSHA1.
Proof.
  constructor; cbn [server find_missing batch_update stream_open stream_write].
  - intros q w h H. now apply unary_keeps.
  - intros q w h H. now apply unary_keeps.
  - intros d w h H. exact H.
  - intros d ms w h H. destruct (broken (circumstances w)) as [[j c]|].
    + cbn [snd]. now apply run_keeps.
    + apply (run_keeps (server_Write ms)) in H. destruct (run_plan S n (server_Write ms) (wait w)) as [[r|] w']; exact H.
  - intros q w missing w' E d Hd NM. apply unary_handles in E. destruct E as [E1 E2].
    apply find_handled in E2. destruct E2 as (b & m & P & M & _ & Q). injection M as M. cbn [app] in M. subst m.
    destruct (Q d Hd) as [X|(dd & D1 & D2)]; [exfalso; apply NM; now apply in_map|].
    exists dd. split; [apply from_size; exact D1|]. rewrite E1. cbn [start wait] in *.
    now rewrite (past_since w' (start w) _ _ E1 P).
  - intros q w l w' E d Hd. apply unary_handles in E. destruct E as [E1 E2].
    apply update_handled in E2. destruct E2 as (b & P & Q). destruct (Q l eq_refl) as [-> Q']. cbn [app] in Hd.
    apply in_map_iff in Hd. destruct Hd as (e & X & He). injection X as <-.
    destruct (Q' e He) as (dd & D1 & D2). exists dd. split; [apply from_size; exact D1|]. rewrite E1.
    now rewrite (past_since w' (start w) _ _ E1 P).
  - intros i uuid d ms w w' HI HU HD NM E. destruct (broken (circumstances w)) as [[j c]|].
    { exfalso. destruct c; discriminate E. }
    destruct (run_plan S n (server_Write ms) (wait w)) as [[r|] w1] eqn:RP; [|discriminate E].
    injection E as -> <-. apply run_handles in RP. destruct RP as (E1 & _ & E3). specialize (E3 _ eq_refl).
    apply write_handled in E3. destruct E3 as (b & P & Q). destruct (Q eq_refl) as (dd & (data & SW) & C).
    exists d. assert (dd = d) as ->.
    { unfold server_write in SW. destruct ms as [|m ms]; [discriminate SW|]. rewrite (NM m (or_introl eq_refl)) in SW.
      destruct (C81_write_name GitSHA1 i uuid d HI HU HD) as (q & W1 & _ & _ & W2). rewrite W1, W2 in SW. now injection SW as <- _. }
    split.
    + unfold names. change (mkWire (w_hash (ToBazel GitSHA1 d)) (d_size d)) with (ToBazel GitSHA1 d). now apply C81_digest.
    + rewrite E1. cbn [start wait] in *. now rewrite (past_since w1 (start w) _ _ E1 P).
Qed.

Lemma server_answers : answers_what_was_asked world R.
Proof.
  intros q w l w' E d c Hd. cbn [server batch_update] in E. apply unary_handles in E. destruct E as [E1 E2].
  apply update_handled in E2. destruct E2 as (b & P & Q). destruct (Q l eq_refl) as [-> _]. cbn [app] in Hd.
  apply in_map_iff in Hd. destruct Hd as (e & X & He). injection X as <- _. apply in_map_iff. eauto.
Qed.

End Proofs.
