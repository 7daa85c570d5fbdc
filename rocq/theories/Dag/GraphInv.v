(** The graph under construction: its links are exactly a history of links. *)

From Coq Require Import List Arith Bool ZArith Lia.
From Verif Require Import Async.Lists Dag.Graph.
Import ListNotations.

(** A link made: output (file or directory) or input of an action node *)
Inductive lev := LOut (file : bool) (c p a : nat) | LIn (c p a : nat).

Definition one {A} (b : bool) (x : A) : list A := if b then [x] else [].

Definition builders_at (h : list lev) (a : nat) : list nat :=
  flat_map (fun e => match e with LOut _ c _ a' => one (Nat.eqb a' a) c | _ => [] end) h.
Definition consumers_at (h : list lev) (a : nat) : list nat :=
  flat_map (fun e => match e with LIn c _ a' => one (Nat.eqb a' a) c | _ => [] end) h.
Definition files_at (h : list lev) (c : nat) : list (nat * nat) :=
  flat_map (fun e => match e with LOut true c' p a => one (Nat.eqb c' c) (p, a) | _ => [] end) h.
Definition dirs_at (h : list lev) (c : nat) : list (nat * nat) :=
  flat_map (fun e => match e with LOut false c' p a => one (Nat.eqb c' c) (p, a) | _ => [] end) h.
Definition outs_at (h : list lev) (c : nat) : list nat :=
  flat_map (fun e => match e with LOut _ c' _ a => one (Nat.eqb c' c) a | _ => [] end) h.
Definition deps_at (h : list lev) (c : nat) : list (nat * nat) :=
  flat_map (fun e => match e with LIn c' p a => one (Nat.eqb c' c) (p, a) | _ => [] end) h.
Definition ins_at (h : list lev) (c : nat) : list nat :=
  flat_map (fun e => match e with LIn c' _ a => one (Nat.eqb c' c) a | _ => [] end) h.

Definition act_of (e : lev) := match e with LOut _ c _ _ | LIn c _ _ => c end.
Definition art_of (e : lev) := match e with LOut _ _ _ a | LIn _ _ a => a end.

Record R (s : gstate) (h : list lev) : Prop := {
  r_arts : forall a n, nth_error (arts s) a = Some n ->
    an_children n = builders_at h a /\ an_parents n = consumers_at h a;
  r_acts : forall c n, nth_error (acts s) c = Some n ->
    cn_files n = files_at h c /\ cn_dirs n = dirs_at h c /\ cn_parents n = outs_at h c /\
    cn_deps n = deps_at h c /\ cn_children n = ins_at h c;
  r_single : forall a, length (builders_at h a) <= 1;
  r_bound : forall e, In e h -> act_of e < length (acts s) /\ art_of e < length (arts s);
  r_aids : forall id n, assoc aid_dec (art_ids s) id = Some n <->
    exists nd, nth_error (arts s) n = Some nd /\ an_id nd = id;
  r_cids : forall id n, assoc Nat.eq_dec (act_ids s) id = Some n <->
    exists nd, nth_error (acts s) n = Some nd /\ cn_id nd = id
}.

(** Nodes found stay found. *)
Definition ext (s s' : gstate) : Prop :=
  (forall id n, assoc aid_dec (art_ids s) id = Some n -> assoc aid_dec (art_ids s') id = Some n) /\
  (forall id n, assoc Nat.eq_dec (act_ids s) id = Some n -> assoc Nat.eq_dec (act_ids s') id = Some n).

Lemma ext_refl : forall s, ext s s.
Proof. split; auto. Qed.

Lemma ext_trans : forall s1 s2 s3, ext s1 s2 -> ext s2 s3 -> ext s1 s3.
Proof. intros s1 s2 s3 [A B] [C D]. split; auto. Qed.

Lemma assoc_app : forall {A B} dec (l : list (A * B)) x y k,
  assoc dec (l ++ [(x, y)]) k =
    match assoc dec l k with Some v => Some v | None => if dec k x then Some y else None end.
Proof.
  intros A B dec l x y k. induction l as [|[k' v] l IH]; cbn [assoc app]; [reflexivity|].
  destruct (dec k k'); auto.
Qed.

Lemma out_of_range : forall s h, R s h ->
  (forall a, length (arts s) <= a -> builders_at h a = [] /\ consumers_at h a = []) /\
  (forall c, length (acts s) <= c -> files_at h c = [] /\ dirs_at h c = [] /\ outs_at h c = [] /\
     deps_at h c = [] /\ ins_at h c = []).
Proof.
  intros s h V. pose proof (r_bound _ _ V) as B. clear V.
  induction h as [|e h IH]; [repeat split|].
  destruct IH as [IH1 IH2]; [intros; apply B; now right|].
  destruct (B e) as [Bc Ba]; [now left|]. split.
  - intros a L. destruct (IH1 a L) as [E1 E2].
    unfold builders_at, consumers_at in *. cbn [flat_map]. rewrite E1, E2.
    destruct e; cbn in Ba |- *; destruct (Nat.eqb_spec a0 a); subst; try lia; auto.
  - intros c L. destruct (IH2 c L) as [E1 [E2 [E3 [E4 E5]]]].
    unfold files_at, dirs_at, outs_at, deps_at, ins_at in *. cbn [flat_map]. rewrite E1, E2, E3, E4, E5.
    destruct e as [[|] c0 p a0|c0 p a0]; cbn in Bc |- *; destruct (Nat.eqb_spec c0 c); subst; try lia; auto.
Qed.

Lemma nth_snoc : forall {A} (l : list A) x i y, nth_error (l ++ [x]) i = Some y <->
  nth_error l i = Some y \/ (i = length l /\ y = x).
Proof.
  intros A l x i y. split.
  - intros H. apply nth_app_one in H. tauto.
  - intros [H|[-> ->]]; [now apply nth_app_old|apply nth_app_new].
Qed.

Lemma add_artifact_R : forall s h id s' n, R s h -> add_artifact s id = (s', n) ->
  R s' h /\ assoc aid_dec (art_ids s') id = Some n /\ ext s s' /\ acts s' = acts s /\
  length (arts s) <= length (arts s').
Proof.
  intros s h id s' n V H. unfold add_artifact in H.
  destruct (assoc aid_dec (art_ids s) id) as [m|] eqn:E.
  - injection H as <- <-. split; [exact V|]. split; [exact E|]. split; [apply ext_refl|]. split; [reflexivity|lia].
  - injection H as <- <-. cbn [art_ids arts acts]. split; [|split; [|split; [|split]]].
    + constructor; cbn [art_ids act_ids arts acts].
      * intros a nd H. apply nth_snoc in H. destruct H as [H|[-> ->]]; [now apply V|].
        cbn. destruct (out_of_range _ _ V) as [O _]. destruct (O _ (Nat.le_refl _)) as [-> ->]. auto.
      * apply V.
      * apply V.
      * intros e J. rewrite app_length. destruct (r_bound _ _ V e J). lia.
      * intros id' m. rewrite assoc_app. destruct (assoc aid_dec (art_ids s) id') as [m'|] eqn:E'.
        -- apply (r_aids _ _ V) in E'. destruct E' as [nd [E1 E2]]. split.
           ++ intros X. injection X as <-. exists nd. split; [now apply nth_app_old|exact E2].
           ++ intros [nd' [X Y]]. apply nth_snoc in X. destruct X as [X|[-> ->]].
              ** f_equal. assert (assoc aid_dec (art_ids s) id' = Some m) as Q by (apply (r_aids _ _ V); eauto).
                 assert (assoc aid_dec (art_ids s) id' = Some m') as Q' by (apply (r_aids _ _ V); eauto). congruence.
              ** cbn in Y. subst id'. assert (assoc aid_dec (art_ids s) id = Some m') as Q' by (apply (r_aids _ _ V); eauto). congruence.
        -- destruct (aid_dec id' id) as [->|N].
           ++ split.
              ** intros X. injection X as <-. eexists. split; [apply nth_app_new|reflexivity].
              ** intros [nd' [X Y]]. apply nth_snoc in X. destruct X as [X|[-> ->]]; [|reflexivity].
                 assert (assoc aid_dec (art_ids s) id = Some m) as Q by (apply (r_aids _ _ V); eauto). congruence.
           ++ split; [discriminate|]. intros [nd' [X Y]]. apply nth_snoc in X. destruct X as [X|[-> ->]].
              ** assert (assoc aid_dec (art_ids s) id' = Some m) as Q by (apply (r_aids _ _ V); eauto). congruence.
              ** cbn in Y. congruence.
      * apply V.
    + rewrite assoc_app, E. destruct (aid_dec id id); congruence.
    + split; cbn [art_ids act_ids]; auto. intros id' m H. rewrite assoc_app, H. reflexivity.
    + reflexivity.
    + rewrite app_length. lia.
Qed.

Lemma add_action_node_R : forall s h id s' n, R s h -> add_action_node s id = (s', n) ->
  R s' h /\ assoc Nat.eq_dec (act_ids s') id = Some n /\ ext s s' /\ arts s' = arts s /\
  (s' = s \/ acts s' = acts s ++ [mkC id [] [] [] [] [] (-1)] /\ n = length (acts s)).
Proof.
  intros s h id s' n V H. unfold add_action_node in H.
  destruct (assoc Nat.eq_dec (act_ids s) id) as [m|] eqn:E.
  - injection H as <- <-. split; [exact V|]. split; [exact E|]. split; [apply ext_refl|]. split; [reflexivity|now left].
  - injection H as <- <-. cbn [act_ids arts acts]. split; [|split; [|split; [|split]]]; auto.
    + constructor; cbn [art_ids act_ids arts acts].
      * apply V.
      * intros a nd H. apply nth_snoc in H. destruct H as [H|[-> ->]]; [now apply V|].
        cbn. destruct (out_of_range _ _ V) as [_ O]. destruct (O _ (Nat.le_refl _)) as [-> [-> [-> [-> ->]]]]. auto.
      * apply V.
      * intros e J. rewrite app_length. destruct (r_bound _ _ V e J). lia.
      * apply V.
      * intros id' m. rewrite assoc_app. destruct (assoc Nat.eq_dec (act_ids s) id') as [m'|] eqn:E'.
        -- apply (r_cids _ _ V) in E'. destruct E' as [nd [E1 E2]]. split.
           ++ intros X. injection X as <-. exists nd. split; [now apply nth_app_old|exact E2].
           ++ intros [nd' [X Y]]. apply nth_snoc in X. destruct X as [X|[-> ->]].
              ** f_equal. assert (assoc Nat.eq_dec (act_ids s) id' = Some m) as Q by (apply (r_cids _ _ V); eauto).
                 assert (assoc Nat.eq_dec (act_ids s) id' = Some m') as Q' by (apply (r_cids _ _ V); eauto). congruence.
              ** cbn in Y. subst id'. assert (assoc Nat.eq_dec (act_ids s) id = Some m') as Q' by (apply (r_cids _ _ V); eauto). congruence.
        -- destruct (Nat.eq_dec id' id) as [->|N].
           ++ split.
              ** intros X. injection X as <-. eexists. split; [apply nth_app_new|reflexivity].
              ** intros [nd' [X Y]]. apply nth_snoc in X. destruct X as [X|[-> ->]]; [|reflexivity].
                 assert (assoc Nat.eq_dec (act_ids s) id = Some m) as Q by (apply (r_cids _ _ V); eauto). congruence.
           ++ split; [discriminate|]. intros [nd' [X Y]]. apply nth_snoc in X. destruct X as [X|[-> ->]].
              ** assert (assoc Nat.eq_dec (act_ids s) id' = Some m) as Q by (apply (r_cids _ _ V); eauto). congruence.
              ** cbn in Y. congruence.
    + rewrite assoc_app, E. destruct (Nat.eq_dec id id); congruence.
    + split; cbn [art_ids act_ids]; auto. intros id' m H. rewrite assoc_app, H. reflexivity.
Qed.

(** Positions of nodes, where they exist *)
Definition aidx (s : gstate) (id : aid) : nat :=
  match assoc aid_dec (art_ids s) id with Some n => n | None => 0 end.
Definition cidx (s : gstate) (id : nat) : nat :=
  match assoc Nat.eq_dec (act_ids s) id with Some n => n | None => 0 end.
Definition a_known (s : gstate) (id : aid) : Prop := exists n, assoc aid_dec (art_ids s) id = Some n.
Definition c_known (s : gstate) (id : nat) : Prop := exists n, assoc Nat.eq_dec (act_ids s) id = Some n.

Lemma aidx_some : forall s id n, assoc aid_dec (art_ids s) id = Some n -> aidx s id = n.
Proof. intros s id n H. unfold aidx. now rewrite H. Qed.
Lemma cidx_some : forall s id n, assoc Nat.eq_dec (act_ids s) id = Some n -> cidx s id = n.
Proof. intros s id n H. unfold cidx. now rewrite H. Qed.

Lemma ext_aidx : forall s s' id, ext s s' -> a_known s id -> aidx s' id = aidx s id /\ a_known s' id.
Proof.
  intros s s' id [E _] [n K]. pose proof (E _ _ K) as K'. split; [|now exists n].
  now rewrite (aidx_some _ _ _ K), (aidx_some _ _ _ K').
Qed.
Lemma ext_cidx : forall s s' id, ext s s' -> c_known s id -> cidx s' id = cidx s id /\ c_known s' id.
Proof.
  intros s s' id [_ E] [n K]. pose proof (E _ _ K) as K'. split; [|now exists n].
  now rewrite (cidx_some _ _ _ K), (cidx_some _ _ _ K').
Qed.

Lemma aidx_inj : forall s h x y, R s h -> a_known s x -> a_known s y -> aidx s x = aidx s y -> x = y.
Proof.
  intros s h x y V [n K] [m L] E. rewrite (aidx_some _ _ _ K), (aidx_some _ _ _ L) in E. subst m.
  apply (r_aids _ _ V) in K. apply (r_aids _ _ V) in L. destruct K as [? [K1 K2]], L as [? [L1 L2]]. congruence.
Qed.
Lemma cidx_inj : forall s h x y, R s h -> c_known s x -> c_known s y -> cidx s x = cidx s y -> x = y.
Proof.
  intros s h x y V [n K] [m L] E. rewrite (cidx_some _ _ _ K), (cidx_some _ _ _ L) in E. subst m.
  apply (r_cids _ _ V) in K. apply (r_cids _ _ V) in L. destruct K as [? [K1 K2]], L as [? [L1 L2]]. congruence.
Qed.

Lemma aidx_bound : forall s h x, R s h -> a_known s x -> aidx s x < length (arts s).
Proof.
  intros s h x V [n K]. rewrite (aidx_some _ _ _ K). apply (r_aids _ _ V) in K. destruct K as [nd [K _]].
  now apply nth_some_lt in K.
Qed.
Lemma cidx_bound : forall s h x, R s h -> c_known s x -> cidx s x < length (acts s).
Proof.
  intros s h x V [n K]. rewrite (cidx_some _ _ _ K). apply (r_cids _ _ V) in K. destruct K as [nd [K _]].
  now apply nth_some_lt in K.
Qed.

Definition place (s : gstate) (x : nat * aid) : nat * nat := (fst x, aidx s (snd x)).

Lemma create_nodes_R : forall l s h s' ns, R s h -> create_nodes s l = (s', ns) ->
  R s' h /\ ext s s' /\ acts s' = acts s /\ ns = map (place s') l /\ (forall x, In x l -> a_known s' (snd x)).
Proof.
  induction l as [|[p id] l IH]; intros s h s' ns V H; cbn [create_nodes] in H.
  - injection H as <- <-. split; [exact V|]. split; [apply ext_refl|]. split; [reflexivity|]. split; [reflexivity|intros x []].
  - destruct (add_artifact s id) as [s1 n] eqn:E1. destruct (create_nodes s1 l) as [s2 ns'] eqn:E2.
    injection H as <- <-. destruct (add_artifact_R _ _ _ _ _ V E1) as [V1 [K1 [X1 [A1 _]]]].
    destruct (IH _ _ _ _ V1 E2) as [V2 [X2 [A2 [-> K2]]]].
    assert (a_known s1 id) as K by now exists n.
    destruct (ext_aidx _ _ _ X2 K) as [I2 K'].
    split; [exact V2|split; [eapply ext_trans; eauto|split; [congruence|split]]].
    + cbn [map]. unfold place at 2. cbn [fst snd]. rewrite I2, (aidx_some _ _ _ K1). reflexivity.
    + intros x [<-|J]; [exact K'|now apply K2].
Qed.

(** ** Linking *)

Lemma flat_map_snoc : forall {A B} (f : A -> list B) l x, flat_map f (l ++ [x]) = flat_map f l ++ f x.
Proof. intros. rewrite flat_map_app. cbn. now rewrite app_nil_r. Qed.

Definition same_ids (s s' : gstate) : Prop :=
  art_ids s' = art_ids s /\ act_ids s' = act_ids s /\ length (arts s') = length (arts s) /\
  map cn_unav (acts s') = map cn_unav (acts s) /\ map an_id (arts s') = map an_id (arts s) /\
  map cn_id (acts s') = map cn_id (acts s).

Lemma same_ids_refl : forall s, same_ids s s.
Proof. repeat split. Qed.
Lemma same_ids_trans : forall s1 s2 s3, same_ids s1 s2 -> same_ids s2 s3 -> same_ids s1 s3.
Proof. unfold same_ids. intuition congruence. Qed.
Lemma same_ids_acts : forall s s', same_ids s s' -> length (acts s') = length (acts s).
Proof. intros s s' H. rewrite <- (map_length cn_id (acts s')), <- (map_length cn_id (acts s)). f_equal. apply H. Qed.
Lemma same_ids_ext : forall s s', same_ids s s' -> ext s s'.
Proof. intros s s' H. destruct H as [A [B _]]. split; intros; congruence. Qed.

Lemma map_upd_id : forall {A B} (f : A -> B) l i x y, nth_error l i = Some x -> f y = f x ->
  map f (upd l i y) = map f l.
Proof.
  intros A B f l. induction l as [|a l IH]; intros [|i] x y H E; cbn in *; try discriminate.
  - injection H as ->. now rewrite E.
  - f_equal. eapply IH; eauto.
Qed.

(** One link: an action node and an artifact node change together. *)
Lemma link_one : forall s h c a e f k, R s h -> act_of e = c -> art_of e = a ->
  c < length (acts s) -> a < length (arts s) ->
  (forall n, an_id (f n) = an_id n) -> (forall n, cn_id (k n) = cn_id n) -> (forall n, cn_unav (k n) = cn_unav n) ->
  (forall n, nth_error (arts s) a = Some n ->
     an_children (f n) = builders_at (h ++ [e]) a /\ an_parents (f n) = consumers_at (h ++ [e]) a) ->
  (forall n, nth_error (acts s) c = Some n ->
    cn_files (k n) = files_at (h ++ [e]) c /\ cn_dirs (k n) = dirs_at (h ++ [e]) c /\
    cn_parents (k n) = outs_at (h ++ [e]) c /\
    cn_deps (k n) = deps_at (h ++ [e]) c /\ cn_children (k n) = ins_at (h ++ [e]) c) ->
  length (builders_at (h ++ [e]) a) <= 1 ->
  R (mod_act (mod_art s a f) c k) (h ++ [e]) /\ same_ids s (mod_act (mod_art s a f) c k).
Proof.
  intros s h c a e f k V Ec Ea Lc La F1 K1 K2 HA HC HS.
  destruct (nth_error (arts s) a) as [na|] eqn:Na; [|apply nth_error_None in Na; lia].
  destruct (nth_error (acts s) c) as [nc|] eqn:Nc; [|apply nth_error_None in Nc; lia].
  assert (mod_act (mod_art s a f) c k =
    mkGS (upd (arts s) a (f na)) (upd (acts s) c (k nc)) (art_ids s) (act_ids s)) as ->.
  { unfold mod_art. rewrite Na. unfold mod_act. cbn [acts arts art_ids act_ids]. now rewrite Nc. }
  assert (forall a', a' <> a -> builders_at (h ++ [e]) a' = builders_at h a' /\
            consumers_at (h ++ [e]) a' = consumers_at h a') as OA.
  { intros a' N. unfold builders_at, consumers_at. rewrite !flat_map_snoc.
    destruct e as [b c0 p a0|c0 p a0]; cbn in Ea; subst a0;
      (destruct (Nat.eqb_spec a a'); [congruence|]); cbn; rewrite !app_nil_r; auto. }
  assert (forall c', c' <> c -> files_at (h ++ [e]) c' = files_at h c' /\ dirs_at (h ++ [e]) c' = dirs_at h c' /\
     outs_at (h ++ [e]) c' = outs_at h c' /\ deps_at (h ++ [e]) c' = deps_at h c' /\
     ins_at (h ++ [e]) c' = ins_at h c') as OC.
  { intros c' N. unfold files_at, dirs_at, outs_at, deps_at, ins_at. rewrite !flat_map_snoc.
    destruct e as [[|] c0 p a0|c0 p a0]; cbn in Ec; subst c0;
      (destruct (Nat.eqb_spec c c'); [congruence|]); cbn; rewrite !app_nil_r; auto. }
  split.
  - constructor; cbn [arts acts art_ids act_ids].
    + intros a' n' H. apply nth_upd in H. destruct H as [[<- [-> _]]|[N H]].
      * now apply HA.
      * destruct (OA a') as [-> ->]; [congruence|]. now apply V.
    + intros c' n' H. apply nth_upd in H. destruct H as [[<- [-> _]]|[N H]].
      * now apply HC.
      * destruct (OC c') as [-> [-> [-> [-> ->]]]]; [congruence|]. now apply V.
    + intros a'. destruct (Nat.eq_dec a' a) as [->|N]; [exact HS|].
      destruct (OA a' N) as [-> _]. apply V.
    + intros e' J. rewrite !upd_length. apply in_app_iff in J. destruct J as [J|[<-|[]]].
      * now apply V.
      * now rewrite Ec, Ea.
    + intros id n. rewrite (r_aids _ _ V). split; intros [nd [X Y]].
      * destruct (Nat.eq_dec a n) as [->|N].
        -- exists (f na). rewrite nth_upd_same by assumption. split; [reflexivity|]. rewrite F1. congruence.
        -- exists nd. rewrite nth_upd_other by assumption. auto.
      * apply nth_upd in X. destruct X as [[-> [-> _]]|[N X]].
        -- exists na. rewrite F1 in Y. auto.
        -- exists nd. auto.
    + intros id n. rewrite (r_cids _ _ V). split; intros [nd [X Y]].
      * destruct (Nat.eq_dec c n) as [->|N].
        -- exists (k nc). rewrite nth_upd_same by assumption. split; [reflexivity|]. rewrite K1. congruence.
        -- exists nd. rewrite nth_upd_other by assumption. auto.
      * apply nth_upd in X. destruct X as [[-> [-> _]]|[N X]].
        -- exists nc. rewrite K1 in Y. auto.
        -- exists nd. auto.
  - unfold same_ids. cbn [arts acts art_ids act_ids]. rewrite upd_length.
    repeat split; try (eapply map_upd_id; eauto).
Qed.

Definition lout (file : bool) (c : nat) (x : nat * nat) : lev := LOut file c (fst x) (snd x).
Definition lin (c : nat) (x : nat * nat) : lev := LIn c (fst x) (snd x).

Lemma link_outs_R : forall file c l s h s' ok, R s h -> c < length (acts s) ->
  (forall x, In x l -> snd x < length (arts s)) ->
  link_outs file s c l = (s', ok) ->
  exists pre, R s' (h ++ map (lout file c) pre) /\ same_ids s s' /\ (ok = true -> pre = l) /\
    (ok = true <-> NoDup (map snd l) /\ forall x, In x l -> builders_at h (snd x) = []).
Proof.
  intros file c. induction l as [|[p a] l IH]; intros s h s' ok V Lc La H; cbn [link_outs] in H.
  - injection H as <- <-. exists []. cbn [map]. rewrite app_nil_r. split; [exact V|]. split; [apply same_ids_refl|].
    split; [auto|]. split; [|reflexivity]. intros _. split; [constructor|intros x []].
  - assert (a < length (arts s)) as L by (apply (La (p, a)); now left).
    destruct (nth_error (arts s) a) as [na|] eqn:Na; [|apply nth_error_None in Na; lia].
    destruct (r_arts _ _ V a na Na) as [Eb Ep].
    unfold add_builder in H. rewrite Na, Eb in H.
    destruct (builders_at h a) as [|b bs] eqn:B.
    + destruct (link_one s h c a (LOut file c p a) (a_add_child c)
                  (if file then c_add_file p a else c_add_dir p a) V) as [V1 S1]; auto.
      { destruct file; reflexivity. }
      { destruct file; reflexivity. }
      { intros n E. rewrite Na in E. injection E as <-. cbn. rewrite Eb, Ep. unfold builders_at, consumers_at.
        rewrite !flat_map_snoc, Nat.eqb_refl. cbn. rewrite app_nil_r. split; [|reflexivity].
        unfold builders_at in B. now rewrite B. }
      { intros n E. destruct (r_acts _ _ V c n E) as [E1 [E2 [E3 [E4 E5]]]].
        unfold files_at, dirs_at, outs_at, deps_at, ins_at in *. rewrite !flat_map_snoc.
        destruct file; cbn; rewrite Nat.eqb_refl, E1, E2, E3, E4, E5; cbn; rewrite ?app_nil_r; auto. }
      { unfold builders_at in *. rewrite flat_map_snoc, B, Nat.eqb_refl. cbn. lia. }
      destruct (fun A B => IH _ (h ++ [LOut file c p a]) s' ok V1 A B H) as [pre [V2 [S2 [P2 O2]]]].
      { now rewrite (same_ids_acts _ _ S1). }
      { intros x J. destruct S1 as [_ [_ [-> _]]]. apply La. now right. }
      exists ((p, a) :: pre). cbn [map]. rewrite <- app_assoc in V2. cbn [app] in V2.
      split; [exact V2|]. split; [eapply same_ids_trans; eauto|]. split; [intros E; now rewrite (P2 E)|].
      rewrite O2. split.
      * intros [ND FR]. split.
        -- constructor; [|exact ND]. intros J. apply in_map_iff in J. destruct J as [x [Ex J]].
           specialize (FR x J). rewrite Ex in FR. unfold builders_at in FR. rewrite flat_map_snoc, Nat.eqb_refl in FR.
           destruct (flat_map _ h); discriminate.
        -- intros x [<-|J]; [exact B|]. specialize (FR x J). unfold builders_at in *. rewrite flat_map_snoc in FR.
           now apply app_eq_nil in FR.
      * intros [ND FR]. inversion ND as [|? ? NI ND']; subst. split; [exact ND'|]. intros x J.
        unfold builders_at. rewrite flat_map_snoc. cbn. destruct (Nat.eqb_spec a (snd x)) as [->|N].
        -- exfalso. apply NI. now apply in_map.
        -- cbn. rewrite app_nil_r. apply FR. now right.
    + injection H as <- <-. exists []. cbn [map]. rewrite app_nil_r. split; [exact V|].
      split; [apply same_ids_refl|]. split; [discriminate|]. split; [discriminate|].
      intros [_ FR]. specialize (FR (p, a) (or_introl eq_refl)). cbn in FR. congruence.
Qed.

Lemma link_ins_R : forall c l s h, R s h -> c < length (acts s) ->
  (forall x, In x l -> snd x < length (arts s)) ->
  R (link_ins s c l) (h ++ map (lin c) l) /\ same_ids s (link_ins s c l).
Proof.
  intros c. induction l as [|[p a] l IH]; intros s h V Lc La; cbn [link_ins map].
  - rewrite app_nil_r. split; [exact V|apply same_ids_refl].
  - assert (a < length (arts s)) as L by (apply (La (p, a)); now left).
    destruct (link_one s h c a (LIn c p a) (a_add_parent c) (c_add_dep p a) V) as [V1 S1]; auto.
    { intros n E. destruct (r_arts _ _ V a n E) as [E1 E2]. unfold builders_at, consumers_at in *.
      rewrite !flat_map_snoc. cbn. rewrite Nat.eqb_refl, app_nil_r, E1, E2. auto. }
    { intros n E. destruct (r_acts _ _ V c n E) as [E1 [E2 [E3 [E4 E5]]]].
      unfold files_at, dirs_at, outs_at, deps_at, ins_at in *. rewrite !flat_map_snoc.
      cbn. rewrite Nat.eqb_refl, E1, E2, E3, E4, E5; cbn; rewrite ?app_nil_r; auto. }
    { unfold builders_at. rewrite flat_map_snoc. cbn. rewrite app_nil_r. apply V. }
    destruct (IH _ (h ++ [LIn c p a]) V1) as [V2 S2].
    { now rewrite (same_ids_acts _ _ S1). }
    { intros x J. destruct S1 as [_ [_ [-> _]]]. apply La. now right. }
    rewrite <- app_assoc in V2. split; [exact V2|eapply same_ids_trans; eauto].
Qed.

Lemma done_R : forall s h c, R s h -> R (mod_act s c c_done) h.
Proof.
  intros s h c V. unfold mod_act. destruct (nth_error (acts s) c) as [n|] eqn:N; [|exact V].
  constructor; cbn [arts acts art_ids act_ids]; try apply V.
  - intros c' n' H. apply nth_upd in H. destruct H as [[<- [-> _]]|[_ H]]; [|now apply V].
    cbn. now apply V.
  - intros e J. rewrite upd_length. now apply V.
  - intros id m. rewrite (r_cids _ _ V). split; intros [nd [X Y]].
      * destruct (Nat.eq_dec c m) as [->|D].
        -- exists (c_done n). rewrite nth_upd_same by (eapply nth_some_lt; eauto). split; [reflexivity|]. cbn. congruence.
        -- exists nd. rewrite nth_upd_other by assumption. auto.
      * apply nth_upd in X. destruct X as [[-> [-> _]]|[D X]].
        -- exists n. auto.
        -- exists nd. auto.
Qed.

Lemma empty_R : R empty_graph [].
Proof.
  constructor; cbn; try (intros [|]; discriminate); auto.
  - intros ? [].
  - intros id n. split; [discriminate|]. intros [nd [H _]]. destruct n; discriminate.
  - intros id n. split; [discriminate|]. intros [nd [H _]]. destruct n; discriminate.
Qed.
