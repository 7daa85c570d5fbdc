(** The invariant of the storage of just-mr, and the programs keep to it. *)
From Coq Require Import String Ascii List Bool NArith Arith Lia.
From Verif Require Import Common.Strs Hex.Model Describe.Model Executor.Wire Rehash.Directory Rehash.DirectoryProofs.
From Verif Require Import GitTree.Model GitTree.Spec GitTree.Ids TreeOps.Spec Rehash.Model Rehash.Spec Fetch.World Fetch.Model Fetch.Spec.
Import ListNotations.
Local Open Scope string_scope.
Local Open Scope list_scope.
Local Open Scope nat_scope.

Section P.
Variable H : string -> string.
Variable extract : string -> string -> option fnode.
Variable resolve : pragma -> fnode -> option fnode.
Variable serve_says : query -> string -> Prop.
Notation git_hash := (git_hash H).
Notation blob_hash := (blob_hash H).
Notation spec := (spec H extract resolve serve_says).
Notation has_tree := (has_tree H).
Notation whole := (whole H).

(** ** Growing *)
Definition odb_le (a b : odb) : Prop := incl (o_dirs a) (o_dirs b) /\ incl (o_commits a) (o_commits b).
Definition ext (w w' : world) : Prop :=
  List.length (w_gens w) = List.length (w_gens w') /\ (forall l, odb_le (odb_at w l) (odb_at w' l)) /\ incl (w_cas w) (w_cas w').

Lemma odb_le_refl a : odb_le a a. Proof. split; apply incl_refl. Qed.
Lemma odb_le_trans a b c : odb_le a b -> odb_le b c -> odb_le a c.
Proof. intros [A B] [C D]. split; eapply incl_tran; eauto. Qed.
Lemma odb_le_join o a : odb_le a (odb_join o a).
Proof. split; cbn; intros x I; apply in_or_app; now right. Qed.
Lemma ext_refl w : ext w w. Proof. split; [reflexivity|]. split; [intros l; apply odb_le_refl|apply incl_refl]. Qed.
Lemma ext_trans a b c : ext a b -> ext b c -> ext a c.
Proof.
  intros (A & B & C) (D & E & F). split; [congruence|]. split; [intros l; eapply odb_le_trans; eauto|eapply incl_tran; eauto].
Qed.
Lemma node_le a b n : odb_le a b -> has_node a n -> has_node b n.
Proof. intros [L _] (d & I & J). exists d. split; auto. Qed.
Lemma dir_le a b n : odb_le a b -> has_dir a n -> has_dir b n.
Proof. intros L [A B]. split; auto. eapply node_le; eauto. Qed.
Lemma tree_le a b t : odb_le a b -> has_tree a t -> has_tree b t.
Proof. intros L (n & A & B). exists n. split; auto. eapply dir_le; eauto. Qed.

(** ** Associations *)
Definition holds (o : odb) (k : akey) (t : string) : Prop :=
  match k with
  | AArchive ty c => exists data n, blob_hash data = c /\ extract ty data = Some n /\ has_dir o n /\ git_hash n = t
  | AResolved p t0 => exists n m, has_dir o n /\ git_hash n = t0 /\ resolve p n = Some m /\ has_dir o m /\ git_hash m = t
  | ACommit c => serve_says (QCommit c []) t /\ has_tree o t
  | AFiles es => exists n, has_dir o n /\ git_hash n = t /\ has_files H es n
  end.
Lemma holds_le a b k t : odb_le a b -> holds a k t -> holds b k t.
Proof.
  intros L. destruct k; cbn; intros A.
  - destruct A as (data & n & A & B & C & D). exists data, n. repeat (split; eauto using dir_le).
  - destruct A as (n & m & A & B & C & D & F). exists n, m. repeat (split; eauto using dir_le).
  - destruct A. split; eauto using tree_le.
  - destruct A as (n & A & B & C). exists n. repeat (split; eauto using dir_le).
Qed.
Lemma holds_tree o k t : holds o k t -> has_tree o t.
Proof.
  destruct k; cbn.
  - intros (data & n & A & B & C & D). now exists n.
  - intros (n & m & A & B & C & D & F). now exists m.
  - tauto.
  - intros (n & A & B & C). now exists n.
Qed.

Definition good_gen (g : generation) : Prop :=
  whole (g_odb g) /\ forall k t, In (k, t) (g_assoc g) -> holds (g_odb g) k t.
Definition good (w : world) : Prop := w_gens w <> [] /\ (forall g, In g (w_gens w) -> good_gen g) /\ whole (w_checkout w).

Lemma good_none : good_gen no_gen. Proof. split; cbn; [intros b []|intros k t []]. Qed.
Lemma gen_at_good w g : good w -> good_gen (gen_at w g).
Proof.
  intros (_ & G & _). unfold gen_at. destruct (nth_in_or_default g (w_gens w) no_gen) as [I|E]; auto. rewrite E. apply good_none.
Qed.
Lemma known_in k l t : known k l = Some t -> In (k, t) l.
Proof.
  induction l as [|[k' t'] r IH]; cbn; [discriminate|]. unfold key_eqb. destruct (akey_dec k k') as [<-|N]; intros E; [injection E as ->; now left|right; auto].
Qed.
Lemma known_holds w g k t : good w -> known k (g_assoc (gen_at w g)) = Some t -> holds (odb_at w (Gen g)) k t.
Proof. intros G K. apply known_in in K. now apply (gen_at_good w g G) in K. Qed.
Lemma whole_join a b : whole a -> whole b -> whole (odb_join a b).
Proof.
  intros A B c I. cbn in I. apply in_app_or in I as [I|I].
  - destruct (A c I) as (t & E & T). exists t. split; auto. eapply tree_le; eauto. split; cbn; intros x J; apply in_or_app; now left.
  - destruct (B c I) as (t & E & T). exists t. split; auto. eapply tree_le; eauto. apply odb_le_join.
Qed.
Lemma whole_dirs ds : whole (mkOdb ds []). Proof. intros b []. Qed.

(** ** Operations *)
Lemma young_ext f w : (forall g, odb_le (g_odb g) (g_odb (f g))) -> ext w (set_young f w).
Proof.
  intros L. unfold set_young. split; [|split; cbn; [|apply incl_refl]].
  - cbn. now destruct (w_gens w).
  - intros [g|]; [|apply odb_le_refl]. unfold odb_at, gen_at. cbn. destruct (w_gens w) as [|g0 r]; [apply odb_le_refl|].
    destruct g; cbn; [apply L|apply odb_le_refl].
Qed.
Lemma young_good f w : (forall g, nth_error (w_gens w) 0 = Some g -> good_gen g -> good_gen (f g)) -> good w -> good (set_young f w).
Proof.
  intros F (N & G & C). unfold set_young. destruct (w_gens w) as [|g0 r] eqn:E; [congruence|].
  split; [cbn; discriminate|]. split; [|exact C]. cbn. intros g [<-|I]; [|apply G; now right]. apply F; [reflexivity|apply G; now left].
Qed.
Lemma add_odb_ext l o w : ext w (add_odb l o w).
Proof.
  destruct l as [g|].
  - apply young_ext. intros x. apply odb_le_join.
  - split; [reflexivity|]. split; [|apply incl_refl]. intros [g|]; [apply odb_le_refl|apply odb_le_join].
Qed.
Lemma add_odb_good l o w : whole o -> good w -> good (add_odb l o w).
Proof.
  intros W G. destruct l as [g|].
  - apply young_good; auto. intros x _ [A B]. split; cbn; [now apply whole_join|]. intros k t I. eapply holds_le; [apply odb_le_join|]. now apply B.
  - destruct G as (N & G & C). split; [exact N|]. split; [exact G|]. cbn. now apply whole_join.
Qed.
Lemma add_dirs_has ds w n : good w -> In n ds -> has_node (odb_at (add_dirs ds w) (Gen 0)) n.
Proof.
  intros (N & _) I. unfold add_dirs, add_odb, set_young, odb_at, gen_at. destruct (w_gens w) as [|g r]; [congruence|]. cbn.
  exists n. split; [apply in_or_app; now left|]. destruct n; now left.
Qed.
Lemma add_assoc_good k t w : holds (odb_at w (Gen 0)) k t -> good w -> good (add_assoc k t w).
Proof.
  intros K G. apply young_good; auto. intros g E [A B]. split; cbn; [exact A|]. intros k' t' [E'|I]; [|now apply B].
  injection E' as <- <-. unfold odb_at, gen_at in K. destruct (w_gens w); [discriminate|]. cbn in E. injection E as ->. exact K.
Qed.

(** An association may be written if it is right. *)
Definition allowed {X} (o : op X) (w : world) : Prop :=
  match o with Write k t => holds (odb_at w (Gen 0)) k t | _ => True end.
Lemma ext_same w w' : w_gens w = w_gens w' -> w_checkout w = w_checkout w' -> incl (w_cas w) (w_cas w') -> ext w w'.
Proof.
  intros A B C. split; [congruence|]. split; [|exact C]. intros [g|]; unfold odb_at, gen_at; rewrite ?A, ?B; apply odb_le_refl.
Qed.
Lemma good_same w w' : w_gens w = w_gens w' -> w_checkout w = w_checkout w' -> good w -> good w'.
Proof. unfold good. intros <- <-. auto. Qed.

Lemma op_keeps X (o : op X) w x w' : allowed o w -> good w -> spec o w x w' -> good w' /\ ext w w'.
Proof.
  destruct o; cbn [World.spec allowed]; intros L G S.
  all: try (subst w'; split; [exact G|apply ext_refl]).
  all: try (destruct S as [-> _]; split; [exact G|apply ext_refl]).
  all: try (destruct x; subst w'; (split; [first [exact G|now apply (good_same w)]|first [apply ext_refl|apply ext_same; auto; cbn; intros ? ?; now right]])).
  - destruct x; subst w'; (split; [first [exact G|now apply add_assoc_good]|first [apply ext_refl|apply young_ext; intros; apply odb_le_refl]]).
  - destruct S as (ds & _ & -> & _). split; [apply add_odb_good; auto using whole_dirs|apply add_odb_ext].
  - destruct S as (o & W & -> & _). split; [apply add_odb_good; auto|apply add_odb_ext].
  - destruct x; [destruct S as (_ & _ & ->)|destruct S as (ds & _ & ->)]; (split; [apply add_odb_good; auto using whole_dirs|apply add_odb_ext]).
  - destruct S as (ds & -> & _). split; [apply add_odb_good; auto using whole_dirs|apply add_odb_ext].
  - destruct x; subst w'; (split; [first [exact G|now apply (good_same w)]|first [apply ext_refl|apply ext_same; auto; apply incl_refl]]).
  - destruct S as (l & ->). split; [now apply (good_same w)|apply ext_same; auto; cbn; intros ? ?; apply in_or_app; now right].
  - destruct S as (o & W & ->). split; [apply add_odb_good; auto|apply add_odb_ext].
  - destruct S as (o & -> & _). split; [now apply (good_same w)|apply ext_same; auto; cbn; intros ? ?; apply in_or_app; now right].
  - destruct S as (o & -> & _). split; [now apply (good_same w)|apply ext_same; auto; apply incl_refl].
Qed.

(** ** Safe programs *)
Section Safe.
Variable post : world -> outcome -> Prop.
Hypothesis post_mono : forall w w' a, ext w w' -> post w a -> post w' a.
Fixpoint safe (p : program) (w : world) : Prop :=
  match p with
  | Ret a => post w a
  | Do o k => forall w1, ext w w1 -> good w1 ->
      allowed o w1 /\ forall x w2, spec o w1 x w2 -> good w2 -> ext w1 w2 -> safe (k x) w2
  end.
Lemma safe_ext p w w' : ext w w' -> safe p w -> safe p w'.
Proof.
  intros E. destruct p as [a|X o k]; cbn [safe]; [now apply post_mono|]. intros S w1 E1. apply S. eapply ext_trans; eauto.
Qed.
End Safe.

Lemma reach_safe (T : Type) (code : T -> program) (post : T -> world -> outcome -> Prop) :
  (forall t w w' a, ext w w' -> post t w a -> post t w' a) ->
  (forall t w, safe (post t) (code t) w) ->
  forall w rs, reach H extract resolve serve_says T outcome code w rs ->
    good w /\ forall t p, In (t, p) rs -> safe (post t) p w.
Proof.
  intros M S w rs R. induction R as [n N|w rs t R [G IH]|w rs1 rs2 t X o k x w' R [G IH] E|w rs1 rs2 r R [G IH]|w w' R [G _] B].
  - split; [|intros ? ? []]. split; [cbn; destruct n; [lia|cbn; discriminate]|]. split; [|intros b []].
    cbn. intros g I. apply repeat_spec in I as ->. apply good_none.
  - split; auto. intros t' p [E|I]; [injection E as <- <-; apply S|auto].
  - pose proof (IH t _ (in_elt _ _ _)) as J. destruct (J w (ext_refl w) G) as [L K]. destruct (op_keeps _ _ _ _ _ L G E) as [G' E'].
    split; auto. intros t' p I. apply in_app_or in I as [I|[I|I]].
    + apply (safe_ext (post t') (M t') p w); auto. apply IH, in_or_app. now left.
    + injection I as <- <-. now apply K.
    + apply (safe_ext (post t') (M t') p w); auto. apply IH, in_or_app. right. now right.
  - split; auto. intros t p I. apply IH. apply in_app_or in I as [I|I]; apply in_or_app; [now left|right; now right].
  - split; [|intros ? ? []]. destruct G as (N & G & C). destruct B as [w i L|w i L|w cas trees A B|w o W].
    + split; [cbn; unfold rename_gen; destruct (firstn i (w_gens w)); discriminate|]. split; [|exact C]. cbn. unfold rename_gen.
      intros g I. apply in_app_or in I as [I|[<-|[<-|I]]].
      * apply G. rewrite <- (firstn_skipn i). apply in_or_app. now left.
      * apply good_none.
      * destruct (nth_in_or_default i (w_gens w) no_gen) as [J|J]; [auto|rewrite J; apply good_none].
      * apply G. rewrite <- (firstn_skipn (i + 2)). apply in_or_app. now right.
    + split; [cbn; unfold remove_gen; destruct (firstn i (w_gens w)); discriminate|]. split; [|exact C]. cbn. unfold remove_gen.
      intros g I. apply in_app_or in I as [I|[<-|I]].
      * apply G. rewrite <- (firstn_skipn i). apply in_or_app. now left.
      * apply good_none.
      * apply G. rewrite <- (firstn_skipn (i + 1)). apply in_or_app. now right.
    + split; auto.
    + split; auto.
Qed.
End P.
