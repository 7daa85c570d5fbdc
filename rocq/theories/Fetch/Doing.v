(** Which operations the programs perform: no content is fetched for absent roots, and nothing from outside is needed
    for what is at hand. *)
From Coq Require Import String Ascii List Bool NArith Arith Lia Permutation.
From Verif Require Import Common.Strs Hex.Model Hex.Proofs Describe.Model Executor.Wire Rehash.Directory Rehash.DirectoryProofs.
From Verif Require Import GitTree.Model GitTree.Spec GitTree.Ids TreeOps.Spec Rehash.Model Rehash.Spec Rehash.Nodes.
From Verif Require Import Fetch.World Fetch.Model Fetch.Spec Fetch.Proofs Fetch.Safety Fetch.Facts.
Import ListNotations.
Local Open Scope string_scope.
Local Open Scope list_scope.
Local Open Scope nat_scope.

(** Bringing content to this machine. *)
Definition brings (X : Type) (o : op X) : bool :=
  match o with Download | FetchGit _ | RunCommand | RemoteBlob _ | RemoteTree _ => true | _ => false end.
(** Contacting anything but the local storage (and the directories given by the user). *)
Definition outside (X : Type) (o : op X) : bool :=
  match o with
  | Download | FetchGit _ | RunCommand | RemoteBlob _ | RemoteTree _ | ServeContent _ | ServeTree _ | Serve _ | ServeHas _
  | Upload _ | RemoteHas _ | ServeGet _ | SyncTree _ => true
  | _ => false
  end.
(** The user wants the root to be absent. *)
Definition wants_absent (cfg : config) (t : task) : bool :=
  match t with
  | TArchive r => r_absent r && negb (c_fetch_absent cfg)
  | TTree r => t_absent r && negb (c_fetch_absent cfg)
  | TCommit r => m_absent r && negb (c_fetch_absent cfg)
  | TDistdir r => d_absent r
  | TForeign r => f_absent r && negb (c_fetch_absent cfg)
  end.

Section P.
Variable H : string -> string.
Variable extract : string -> string -> option fnode.
Variable resolve : pragma -> fnode -> option fnode.
Variable serve_says : query -> string -> Prop.
Notation spec := (spec H extract resolve serve_says).

Ltac walk := repeat (first [exact Logic.I | progress intros | split; [reflexivity|] |
  match goal with
  | |- context [match ?x with _ => _ end] => first [is_var x; destruct x | destruct x eqn:?]
  end | progress cbn [never] ]).

Notation quiet := (never brings).
Lemma ensure_quiet cfg q hit ig t : quiet (ensure_absent cfg q hit ig t).
Proof. unfold ensure_absent. walk. Qed.
Lemma set_quiet cfg r hit ab t : quiet (set_root cfg r hit ab t).
Proof. unfold set_root. destruct ab; [apply ensure_quiet|exact Logic.I]. Qed.
Lemma resolve_quiet cfg r hit ab t : quiet (resolve_content cfg r hit ab t).
Proof.
  unfold resolve_content. destruct (r_pragma r); [|apply set_quiet]. cbn [never]. split; [reflexivity|]. intros [].
  - split; [reflexivity|]. intros [t'|]; [apply set_quiet|exact Logic.I].
  - split; [reflexivity|]. intros [t'|]; [|exact Logic.I]. split; [reflexivity|]. intros []; [|exact Logic.I].
    split; [reflexivity|]. intros []; [apply set_quiet|exact Logic.I].
Qed.
Lemma extract_quiet cfg r ab d : quiet (extract_and_import cfg r ab d).
Proof.
  unfold extract_and_import. cbn [never]. split; [reflexivity|]. intros [n|]; [|exact Logic.I]. split; [reflexivity|]. intros [t|]; [|exact Logic.I].
  split; [reflexivity|]. intros []; [|exact Logic.I]. split; [reflexivity|]. intros [t'|]; [apply resolve_quiet|exact Logic.I].
Qed.
Lemma local_quiet cfg r : quiet (locally_known cfg r).
Proof.
  unfold locally_known. cbn [never]. split; [reflexivity|]. intros [t|]; [|exact Logic.I]. split; [reflexivity|].
  intros [t'|]; [apply resolve_quiet|exact Logic.I].
Qed.
Lemma old_quiet cfg r g : quiet (known_in_old cfg r g).
Proof.
  unfold known_in_old. cbn [never]. split; [reflexivity|]. intros [t|]; [|exact Logic.I].
  do 4 (split; [reflexivity|]; intros []; [|exact Logic.I]). apply local_quiet.
Qed.
Lemma search_quiet gs k f o : (forall g, quiet (f g)) -> quiet o -> quiet (search_old gs k f o).
Proof. intros F O. induction gs as [|g r IH]; cbn [search_old never]; auto. split; [reflexivity|]. intros []; auto. Qed.

Lemma archive_quiet cfg r : r_absent r && negb (c_fetch_absent cfg) = true -> quiet (archive_root H cfg r).
Proof.
  intros A. unfold archive_root. rewrite A. cbn [never]. split; [reflexivity|]. intros []; [apply local_quiet|].
  apply search_quiet; [intros; apply old_quiet|].
  match goal with |- quiet (if c_serve cfg then Do _ (fun x => match x with Found _ _ => _ | NotFound => ?l | Fatal => _ end) else _) => assert (L : quiet l) end.
  { cbn [never]. split; [reflexivity|]. intros [d|]; [apply extract_quiet|]. split; [reflexivity|]. intros [[d|]|]; [| |exact Logic.I].
    - split; [reflexivity|]. intros []; [|exact Logic.I]. split; [reflexivity|]. intros [d'|]; [apply extract_quiet|exact Logic.I].
    - split; [reflexivity|]. intros _. split; [reflexivity|]. intros [d'|]; [apply extract_quiet|exact Logic.I]. }
  destruct (c_serve cfg); [|exact L]. cbn [never]. split; [reflexivity|]. intros [t d| |]; [exact Logic.I|exact L|exact Logic.I].
Qed.
Lemma tree_quiet cfg r : t_absent r && negb (c_fetch_absent cfg) = true -> quiet (tree_root H cfg r).
Proof. intros A. unfold tree_root. rewrite A. unfold move_cas_tree. walk. Qed.
Lemma commit_quiet cfg r : m_absent r && negb (c_fetch_absent cfg) = true -> quiet (commit_root cfg r).
Proof.
  intros A. unfold commit_root, network_fetch. rewrite A. cbv zeta. cbn [never]. split; [reflexivity|]. intros [[]|]; [| |exact Logic.I].
  - split; [reflexivity|]. intros [t|]; [apply ensure_quiet|exact Logic.I].
  - split; [reflexivity|]. intros [].
    + split; [reflexivity|]. intros [t|]; [|exact Logic.I]. split; [reflexivity|]. intros [t'|]; [apply ensure_quiet|exact Logic.I].
    + assert (O : forall gs o, quiet o -> quiet (commit_in_old gs r o)).
      { induction gs as [|g l IH]; intros o Q; cbn [commit_in_old]; auto. cbn [never]. split; [reflexivity|]. intros [[]|]; [|now apply IH|now apply IH].
        unfold tag_and_set. walk. }
      apply O. walk.
Qed.
Lemma distdir_quiet cfg r : d_absent r = true -> quiet (distdir_root H cfg r).
Proof.
  intros A. unfold distdir_root. rewrite A. cbv zeta. cbn [never]. split; [reflexivity|]. intros [].
  - split; [reflexivity|]. intros [t|]; [apply ensure_quiet|exact Logic.I].
  - destruct (memory_tree H (distdir_key r)); [|exact Logic.I]. walk.
Qed.
Lemma foreign_quiet cfg r : f_absent r && negb (c_fetch_absent cfg) = true -> quiet (foreign_root H cfg r).
Proof. intros A. unfold foreign_root. rewrite A. cbv zeta. destruct (memory_tree H (foreign_key r)); [|exact Logic.I]. walk. Qed.

Theorem absent_quiet cfg t : wants_absent cfg t = true -> quiet (setup H (cfg, t)).
Proof.
  destruct t; cbn [wants_absent setup fst snd]; [apply archive_quiet|apply tree_quiet|apply commit_quiet|apply distdir_quiet|apply foreign_quiet].
Qed.

(** ** Nothing from outside *)
(** What a program does when it runs alone. *)
Fixpoint does (p : program) (w : world) (X : Type) (o : op X) : Prop :=
  match p with
  | Ret _ => False
  | @Do _ Y o' k => existT op Y o' = existT op X o \/ exists x w', spec o' w x w' /\ does (k x) w' X o
  end.

(** What is needed is in the local storage. *)
Definition content_at_hand (h : string) (w : world) : Prop :=
  (exists data, In data (w_cas w) /\ blob_hash H data = h) \/ (exists data, has_blob H (git_cache w) h data).
Definition associated (g : nat) (k : akey) (w : world) : Prop := exists t, known k (g_assoc (gen_at w g)) = Some t.
Definition at_hand (cfg : config) (t : task) (w : world) : Prop :=
  match t with
  | TArchive r => (exists g, g < Nat.max 1 (c_gens cfg) /\ associated g (AArchive (r_type r) (a_content (r_archive r))) w) \/
                  content_at_hand (a_content (r_archive r)) w
  | TTree r => has_tree H (git_cache w) (t_hash r)
  | TCommit r => has_commit H (odb_at w (if m_checkout r then Checkout else Gen 0)) (m_commit r) \/ associated 0 (ACommit (m_commit r)) w
  | TDistdir r => exists k, files_of t k /\ associated 0 (AFiles k) w
  | TForeign r => (exists k, files_of t k /\ associated 0 (AFiles k) w) \/ content_at_hand (a_content (f_archive r)) w
  end.

Notation still := (never outside).
Lemma same_op X (o : op X) Y (o' : op Y) : existT op X o = existT op Y o' -> outside X o = outside Y o'.
Proof. intros E. exact (f_equal (fun s : {X : Type & op X} => outside (projT1 s) (projT2 s)) E). Qed.
Lemma still_does p w X (o : op X) : still p -> does p w X o -> outside X o = false.
Proof.
  revert w. induction p as [a|Y o' k IH]; intros w S D; [destruct D|]. destruct S as [A B]. destruct D as [E|(x & w' & _ & D)]; [|eauto].
  rewrite <- (same_op _ _ _ _ E). exact A.
Qed.
Lemma set_still cfg r hit t : still (set_root cfg r hit false t).
Proof. exact Logic.I. Qed.
Lemma resolve_still cfg r hit t : still (resolve_content cfg r hit false t).
Proof. unfold resolve_content, set_root. walk. Qed.
Lemma extract_still cfg r d : still (extract_and_import cfg r false d).
Proof.
  unfold extract_and_import. cbn [never]. split; [reflexivity|]. intros [n|]; [|exact Logic.I]. split; [reflexivity|]. intros [t|]; [|exact Logic.I].
  split; [reflexivity|]. intros []; [|exact Logic.I]. split; [reflexivity|]. intros [t'|]; [apply resolve_still|exact Logic.I].
Qed.
Lemma local_still cfg r : r_absent r && negb (c_fetch_absent cfg) = false -> still (locally_known cfg r).
Proof.
  intros A. unfold locally_known. rewrite A. cbn [never]. split; [reflexivity|]. intros [t|]; [|exact Logic.I]. split; [reflexivity|].
  intros [t'|]; [apply resolve_still|exact Logic.I].
Qed.
Lemma old_still cfg r g : r_absent r && negb (c_fetch_absent cfg) = false -> still (known_in_old cfg r g).
Proof.
  intros A. unfold known_in_old. cbn [never]. split; [reflexivity|]. intros [t|]; [|exact Logic.I].
  do 4 (split; [reflexivity|]; intros []; [|exact Logic.I]). now apply local_still.
Qed.
(** One step. *)
Lemma does_do X (o : op X) k w Y (o' : op Y) : does (Do o k) w Y o' -> outside X o = false ->
  (forall x w', spec o w x w' -> does (k x) w' Y o' -> outside Y o' = false) -> outside Y o' = false.
Proof. intros [E|(x & w' & S & D)] A B; [rewrite <- (same_op _ _ _ _ E); exact A|eauto]. Qed.
Ltac one D x w S D2 := eapply does_do in D; [exact D|reflexivity|]; clear D; intros x w S D2; cbn [World.spec] in S.

Lemma content_still cfg a next w X (o : op X) : content_at_hand (a_content a) w -> still next -> does (content_cas H cfg a next) w X o -> outside X o = false.
Proof.
  intros C N D. unfold content_cas in D. cbv zeta in D. one D b w1 S1 D1. destruct S1 as [-> S1]. destruct b; [eapply still_does; eauto|].
  destruct C as [C|C]; [exfalso; apply S1 in C; discriminate|]. one D1 x w2 S2 D2. destruct S2 as [-> S2]. destruct x as [[data|]|].
  - one D2 ok w3 S3 D3. destruct ok; [eapply still_does; eauto|destruct D3].
  - exfalso. auto.
  - destruct D2.
Qed.
Lemma search_still k gs f other w X (o : op X) : (exists g, In g gs /\ associated g k w) -> (forall g, still (f g)) ->
  does (search_old gs k f other) w X o -> outside X o = false.
Proof.
  intros (g & I & t & K) F. revert other. induction gs as [|g0 gs IH]; intros other D; [destruct I|]. cbn [search_old] in D.
  one D b w1 S1 D1. destruct S1 as [-> S1]. destruct b; [eapply still_does; eauto|]. destruct I as [->|I]; [|eapply IH; eauto].
  exfalso. assert (false = true) by (apply S1; congruence). discriminate.
Qed.
Lemma not_known (b : bool) g k w : associated g k w -> (b = true <-> known k (g_assoc (gen_at w g)) <> None) -> b = true.
Proof. intros (t & K) E. apply E. congruence. Qed.

Lemma distdir_files d k : files_of (TDistdir d) k -> k = distdir_key d.
Proof. intros ->. unfold distdir_key. apply map_ext. now intros []. Qed.
Theorem at_hand_still cfg t w X (o : op X) : wants_absent cfg t = false -> at_hand cfg t w -> does (setup H (cfg, t)) w X o -> outside X o = false.
Proof.
  intros A C D. destruct t as [r|r|r|r|r]; cbn [wants_absent at_hand setup fst snd] in *.
  - unfold archive_root in D. rewrite A in D. one D b w1 S1 D1. destruct S1 as [-> S1]. destruct b; [exact (still_does _ _ _ _ (local_still cfg r A) D1)|].
    destruct C as [(g & L & K)|C].
    + destruct g as [|g]; [pose proof (not_known _ _ _ _ K S1); discriminate|]. apply search_still in D1; auto.
      * exists (S g). split; auto. unfold old_gens. apply in_seq. lia.
      * intros. now apply old_still.
    + assert (Sr : forall gs other, (forall X (o : op X), does other w X o -> outside X o = false) -> forall X (o : op X), does (search_old gs (archive_key r) (known_in_old cfg r) other) w X o -> outside X o = false).
      { induction gs as [|g gs IH]; intros other O Y o' E; cbn [search_old] in E; auto. one E b w1 S2 E1. destruct S2 as [-> S2].
        destruct b; [exact (still_does _ _ _ _ (old_still cfg r g A) E1)|eapply IH; eauto]. }
      eapply Sr; [|exact D1]. intros Y o' E. eapply content_still; [exact C| |exact E].
      cbn [never]. split; [reflexivity|]. intros [d|]; [apply extract_still|exact Logic.I].
  - unfold tree_root in D. rewrite A in D. unfold git_tree_fetch in D. cbv zeta in D. one D b w1 S1 D1. destruct S1 as [-> S1].
    destruct b as [[]|]; [destruct D1| |destruct D1]. apply S1 in C. discriminate.
  - unfold commit_root in D. rewrite A in D. cbv zeta in D. one D b w1 S1 D1. destruct S1 as [-> S1]. destruct b as [[]|]; [| |destruct D1].
    + eapply still_does; [|exact D1]. walk.
    + destruct C as [C|C]; [apply S1 in C; discriminate|]. one D1 b w2 S2 D2. destruct S2 as [-> S2]. pose proof (not_known _ _ _ _ C S2) as Eb. subst b.
      eapply still_does; [|exact D2]. walk.
  - unfold distdir_root in D. rewrite A in D. destruct C as (k & ->%distdir_files & C). cbv zeta in D. one D b w1 S1 D1. destruct S1 as [-> S1]. pose proof (not_known _ _ _ _ C S1) as Eb. subst b.
    eapply still_does; [|exact D1]. walk.
  - unfold foreign_root in D. rewrite A in D. cbv zeta in D. one D b w1 S1 D1. destruct S1 as [-> S1]. destruct b.
    + eapply still_does; [|exact D1]. walk.
    + destruct C as [(k & -> & C)|C]; [pose proof (not_known _ _ _ _ C S1); discriminate|]. eapply content_still; [exact C| |exact D1].
      unfold foreign_key. cbn [link_files]. walk.
Qed.
End P.
