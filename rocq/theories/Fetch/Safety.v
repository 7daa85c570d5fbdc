(** Each program of just-mr keeps the invariant, and its result is what it should be. *)
From Coq Require Import String Ascii List Bool NArith Arith Lia.
From Verif Require Import Common.Strs Hex.Model Describe.Model Executor.Wire Rehash.Directory Rehash.DirectoryProofs.
From Verif Require Import GitTree.Model GitTree.Spec GitTree.Ids TreeOps.Spec Rehash.Model Rehash.Spec Rehash.Nodes Fetch.World Fetch.Model Fetch.Spec Fetch.Proofs.
Import ListNotations.
Local Open Scope string_scope.
Local Open Scope list_scope.
Local Open Scope nat_scope.

Section P.
Variable H : string -> string.
Variable extract : string -> string -> option fnode.
Variable resolve : pragma -> fnode -> option fnode.
Variable serve_says : query -> string -> Prop.
Notation git_hash := (git_hash H).
Notation blob_hash := (blob_hash H).
Notation spec := (spec H extract resolve serve_says).
Notation has_tree := (has_tree H).
Notation whole := (whole H).
Notation holds := (holds H extract resolve serve_says).
Notation good := (good H extract resolve serve_says).
Notation allowed := (allowed H extract resolve serve_says).
Notation safe := (safe H extract resolve serve_says).

(** ** Small facts *)
Lemma parts_self n : In n (parts n). Proof. destruct n; now left. Qed.
Lemma parts_trans a b c : In a (parts b) -> In b (parts c) -> In a (parts c).
Proof.
  revert b. induction c as [x d|t|es IH] using fnode_ind'; intros b A B.
  - destruct B as [<-|[]]; exact A.
  - destruct B as [<-|[]]; exact A.
  - apply (parts_dir) in B as [->|(x & c & I & B)]; [exact A|]. apply parts_dir. right. exists x, c. split; [exact I|].
    rewrite Forall_forall in IH. exact (IH _ I b A B).
Qed.
Lemma at_path_parts p : forall n m, at_path n p = Some m -> In m (parts n).
Proof.
  induction p as [|x q IH]; intros n m; cbn [at_path]; [intros E; injection E as <-; apply parts_self|].
  destruct n as [| |es]; try discriminate. destruct (alookup x es) as [c|] eqn:A; [|discriminate]. intros E.
  apply parts_dir. right. exists x, c. split; [now apply alookup_In|now apply IH].
Qed.
Lemma node_at o n p m : has_node o n -> at_path n p = Some m -> has_node o m.
Proof. intros (d & I & J) A. exists d. split; [exact I|]. eapply parts_trans; [eapply at_path_parts; eauto|exact J]. Qed.

(** ** Facts that stay true *)
Definition in_cas (h : string) (w : world) : Prop := exists data, In data (w_cas w) /\ blob_hash data = h.
Lemma in_cas_ext h w w' : ext w w' -> in_cas h w -> in_cas h w'.
Proof. intros (_ & _ & C) (d & I & E). exists d. auto. Qed.
Definition sub_of (o : odb) (t : string) (p : list string) (m : fnode) : Prop :=
  exists n, has_dir o n /\ git_hash n = t /\ at_path n p = Some m.
Lemma sub_le a b t p m : odb_le a b -> sub_of a t p m -> sub_of b t p m.
Proof. intros L (n & A & B & C). exists n. split; [eapply dir_le; eauto|auto]. Qed.
Lemma entry_sub o t p r : has_tree o t -> entry_of H o t p (Some r) -> exists m, sub_of o t p m /\ r = git_hash m.
Proof.
  intros (n & D & E) R. destruct p as [|x q]; cbn [entry_of] in R.
  - subst r. exists n. split; [exists n; auto|congruence].
  - destruct R as (n' & m & A & B & C & F). exists m. split; [exists n'; auto|exact F].
Qed.

(** The tree with links resolved, where a directory with the same id has been resolved. *)
Definition linked (o : odb) (p : option pragma) (m : fnode) (t : string) : Prop :=
  match p with
  | None => t = git_hash m
  | Some p => exists m1 m', has_dir o m1 /\ git_hash m1 = git_hash m /\ resolve p m1 = Some m' /\ has_dir o m' /\ t = git_hash m'
  end.
Definition archive_fact (o : odb) (r : archive_repo) (t : string) : Prop :=
  exists data n m, blob_hash data = a_content (r_archive r) /\ extract (r_type r) data = Some n /\ has_dir o n /\
    sub_of o (git_hash n) (r_subdir r) m /\ linked o (r_pragma r) m t.
Lemma linked_le a b p m t : odb_le a b -> linked a p m t -> linked b p m t.
Proof.
  intros L. destruct p; cbn; [|auto]. intros (m1 & m' & A & B & C & D & E). exists m1, m'. repeat (split; eauto using dir_le).
Qed.
Lemma archive_fact_le a b r t : odb_le a b -> archive_fact a r t -> archive_fact b r t.
Proof.
  intros L (data & n & m & A & B & C & D & E). exists data, n, m. repeat (split; eauto using dir_le, sub_le, linked_le).
Qed.
(** Of a commit: the object is there, or the serve endpoint has named its tree. *)
Definition commit_fact (o : odb) (c : string) (p : list string) (t : string) : Prop :=
  exists t0 m, sub_of o t0 p m /\ t = git_hash m /\
    ((exists b, commit_id H b = c /\ commit_tree b = Some t0) \/ serve_says (QCommit c []) t0).
Lemma commit_fact_le a b c p t : odb_le a b -> commit_fact a c p t -> commit_fact b c p t.
Proof. intros L (t0 & m & A & B & C). exists t0, m. split; [eauto using sub_le|auto]. Qed.
Definition files_fact (o : odb) (es : list (string * (string * bool))) (t : string) : Prop :=
  exists n, has_dir o n /\ git_hash n = t /\ has_files H es n.
Lemma files_fact_le a b es t : odb_le a b -> files_fact a es t -> files_fact b es t.
Proof. intros L (n & A & B & C). exists n. split; [eauto using dir_le|auto]. Qed.
(** Of a tree: it is there; or it was installed from the CAS, which has dropped something; or the serve endpoint has
    given a digest. *)
Definition tree_fact (cfg : config) (o : odb) (t : string) : Prop :=
  has_tree o t \/ (exists n, is_dir n = true /\ git_hash n = t /\ installed_dir n <> n /\ has_dir o (installed_dir n)) \/
  c_serve cfg && c_remote cfg = true.
Lemma tree_fact_le cfg a b t : odb_le a b -> tree_fact cfg a t -> tree_fact cfg b t.
Proof.
  intros L [A|[(n & A & B & C & D)|A]]; [left; eauto using tree_le|right; left; exists n; eauto using dir_le|right; now right].
Qed.

(** What is claimed about the result. *)
Definition post (job : config * task) (w : world) (a : outcome) : Prop :=
  match a with
  | Crash => False
  | Error => True
  | Root rt =>
      match snd job with
      | TArchive r =>
          match rt with
          | Present i t l => i = false /\ l = Gen 0 /\ archive_fact (odb_at w (Gen 0)) r t /\ r_absent r && negb (c_fetch_absent (fst job)) = false
          | Absent i t => i = false /\ (archive_fact (odb_at w (Gen 0)) r t \/ serve_says (archive_query r) t) /\
                          r_absent r && negb (c_fetch_absent (fst job)) = true
          end
      | TTree r =>
          match rt with
          | Present i t l => i = t_ignore r /\ l = Gen 0 /\ t = t_hash r /\ tree_fact (fst job) (odb_at w (Gen 0)) t /\
                             t_absent r && negb (c_fetch_absent (fst job)) = false
          | Absent i t => i = t_ignore r /\ t = t_hash r /\ t_absent r && negb (c_fetch_absent (fst job)) = true
          end
      | TCommit r =>
          match rt with
          | Present i t l => i = m_ignore r /\ (l = Gen 0 \/ l = commit_loc r) /\ commit_fact (odb_at w l) (m_commit r) (m_subdir r) t
          | Absent i t => i = m_ignore r /\ m_absent r && negb (c_fetch_absent (fst job)) = true /\
              ((exists l, (l = Gen 0 \/ l = commit_loc r) /\ commit_fact (odb_at w l) (m_commit r) (m_subdir r) t) \/ serve_says (commit_query r) t)
          end
      | TDistdir r =>
          match rt with
          | Present i t l => i = false /\ l = Gen 0 /\ files_fact (odb_at w (Gen 0)) (distdir_key r) t /\ d_absent r = false
          | Absent i t => i = false /\ (files_fact (odb_at w (Gen 0)) (distdir_key r) t \/ memory_tree H (distdir_key r) = Some t) /\ d_absent r = true
          end
      | TForeign r =>
          match rt with
          | Present i t l => i = false /\ l = Gen 0 /\ files_fact (odb_at w (Gen 0)) (foreign_key r) t /\ f_absent r && negb (c_fetch_absent (fst job)) = false
          | Absent i t => i = false /\ memory_tree H (foreign_key r) = Some t /\ f_absent r && negb (c_fetch_absent (fst job)) = true
          end
      end
  end.
Lemma post_mono job w w' a : ext w w' -> post job w a -> post job w' a.
Proof.
  intros (_ & L & _). destruct a as [rt| |]; cbn [post]; auto. destruct (snd job); destruct rt; auto.
  - intros (A & B & C & D). repeat (split; eauto using archive_fact_le).
  - intros (A & [B|B] & C); repeat (split; eauto using archive_fact_le).
  - intros (A & B & C & D & E). repeat (split; eauto using tree_fact_le).
  - intros (A & B & C). repeat (split; eauto using commit_fact_le).
  - intros (A & B & [(l & C & D)|C]); (split; [exact A|split; [exact B|]]); [left; exists l; eauto using commit_fact_le|now right].
  - intros (A & B & C & D). repeat (split; eauto using files_fact_le).
  - intros (A & [B|B] & C); repeat (split; eauto using files_fact_le).
  - intros (A & B & C & D). repeat (split; eauto using files_fact_le).
Qed.

(** ** The programs, one after the other. For this, [Q] is any claim about results that stays true and allows errors. *)
Ltac op x w S G E :=
  cbn [Proofs.safe]; let w1 := fresh "wa" in let E1 := fresh "Ea" in let G1 := fresh "Ga" in let E2 := fresh "Eb" in
  intros w1 E1 G1; split; [try exact Logic.I|intros x w S G E2; pose proof (ext_trans _ _ _ E1 E2) as E; cbn [World.spec] in S].

Section Any.
Variable Q : world -> outcome -> Prop.
Hypothesis Q_mono : forall w w' a, ext w w' -> Q w a -> Q w' a.
Hypothesis Q_error : forall w, Q w Error.
Notation safeQ := (safe Q).
Variable cfg : config.

(** A continuation that is safe whenever [F] holds, in all later worlds. *)
Definition ready (F : world -> Prop) (next : program) (w : world) : Prop := forall w', ext w w' -> good w' -> F w' -> safeQ next w'.
Lemma ready_ext F next w w' : ext w w' -> ready F next w -> ready F next w'.
Proof. intros E R w2 E2. apply R. eapply ext_trans; eauto. Qed.

Lemma stored data h w w' : spec (StoreBlob data) w true w' -> blob_hash data = h -> in_cas h w'.
Proof. cbn [World.spec]. intros -> E. exists data. split; [now left|exact E]. Qed.
Lemma blob_of o h data : has_blob H o h data -> blob_hash data = h.
Proof.
  intros (n & _ & D & <- & <-). unfold World.blob_hash, Rehash.Spec.git_hash. destruct n; [|reflexivity|discriminate]. cbn. now destruct x.
Qed.

Lemma network_safe a next w : ready (in_cas (a_content a)) next w -> safeQ (fetch_from_network a next) w.
Proof.
  intros R. unfold fetch_from_network. destruct (a_url a); [|apply Q_error]. op r w2 S2 G E. destruct r as [data|]; [|apply Q_error].
  destruct (a_sums a data); [|apply Q_error]. op ok w3 S3 G3 E3. destruct ok; [|apply Q_error]. op b w4 S4 G4 E4.
  destruct b; [|apply Q_error]. destruct S4 as [-> [S4 _]]. apply R; auto; [eauto using ext_trans|now apply S4].
Qed.

Lemma blob_in_old_safe gs h next other : forall w, ready (in_cas h) next w -> ready (fun _ => True) other w ->
  good w -> safeQ (blob_in_old gs h next other) w.
Proof.
  induction gs as [|g r IH]; intros w R O Gw; cbn [blob_in_old]; [apply O; auto using ext_refl|].
  op x w2 S2 G E. destruct S2 as [-> S2]. destruct x as [[data|]|].
  - op ok w3 S3 G3 E3. destruct ok; [|apply Q_error]. apply R; auto; [eauto using ext_trans|]. eapply stored; [exact S3|]. eapply blob_of; eauto.
  - apply IH; eauto using ready_ext.
  - apply IH; eauto using ready_ext.
Qed.

Lemma content_safe a next w : ready (in_cas (a_content a)) next w -> safeQ (content_cas H cfg a next) w.
Proof.
  intros R. unfold content_cas.
  set (rest := if negb (c_compat cfg) && c_remote cfg then _ else _).
  assert (Rest : forall w', ext w w' -> safeQ rest w').
  { intros w' E. subst rest. destruct (negb (c_compat cfg) && c_remote cfg); [|apply network_safe; eauto using ready_ext].
    op ok w3 S3 G3 E3. destruct S3 as (l & -> & S3). destruct ok.
    - apply R; auto; [eauto using ext_trans|]. destruct (S3 eq_refl) as (d & I & J). now exists d.
    - apply network_safe. eauto using ready_ext, ext_trans. }
  clearbody rest.
  op b w2 S2 G E. destruct S2 as [-> [S2 _]]. destruct b; [apply R; auto; now apply S2|]. clear S2.
  op x w3 S3 G3 E3. destruct x as [[data|]|]; [| |apply Q_error].
  - destruct S3 as [-> S3]. op ok w4 S4 G4 E4. destruct ok; [|apply Q_error]. apply R; auto; [eauto using ext_trans|]. eapply stored; [exact S4|]. eapply blob_of; eauto.
  - assert (E03 := ext_trans _ _ _ E E3). apply blob_in_old_safe; eauto using ready_ext. intros w4 E4 G4 _.
    op u w5 S5 G5 E5. op b w6 S6 G6 E6. assert (E06 : ext w w6) by eauto using ext_trans.
    destruct S6 as [-> [S6 _]]. destruct b; [apply R; auto; now apply S6|]. clear S6.
    destruct (c_serve cfg && c_remote cfg); [|auto]. op d w7 S7 G7 E7. destruct S7 as [-> S7]. destruct d as [d|]; [|apply Rest; eauto using ext_trans].
    op ok w8 S8 G8 E8. destruct S8 as (l & -> & S8). destruct ok; [|apply Rest; eauto using ext_trans].
    destruct (String.eqb_spec (served_hash d) (a_content a)) as [Eh|Eh].
    + destruct d as [h|h]; cbn in Eh.
      * apply R; auto; [eauto using ext_trans|]. destruct (S8 eq_refl) as (dd & I & J). exists dd. split; [exact I|congruence].
      * contradiction.
    + destruct (c_compat cfg); [|apply Q_error]. op c w9 S9 G9 E9. destruct c as [data|]; [|apply Q_error].
      op ok w10 S10 G10 E10. destruct ok; [|apply Q_error]. destruct (String.eqb_spec (blob_hash data) (a_content a)) as [Ed|Ed]; [|apply Q_error].
      cbn [andb]. op ok w11 S11 G11 E11. destruct ok; [|apply Q_error].
      apply R; auto; [eauto 8 using ext_trans|]. eapply in_cas_ext; [|eapply stored; [exact S10|exact Ed]]. eauto using ext_trans.
Qed.

Lemma ensure_absent_safe q hit ig t w : (forall w', ext w w' -> Q w' (Root (Absent ig t))) -> safeQ (ensure_absent cfg q hit ig t) w.
Proof.
  intros R. unfold ensure_absent. destruct (c_serve cfg); [|apply R, ext_refl]. op has w2 S2 G2 E2.
  destruct has as [[]|]; [now apply R| |apply Q_error].
  assert (U : forall w', ext w w' -> safeQ (Do (Upload t) (fun ok => if ok then Ret (Root (Absent ig t)) else Ret Error)) w').
  { intros w' E'. op ok w3 S3 G3 E3. destruct ok; [apply R; eauto using ext_trans|apply Q_error]. }
  destruct hit; [|now apply U]. op r w3 S3 G3 E3. destruct S3 as [-> S3]. destruct r as [t' d| |]; [|apply U; eauto using ext_trans|apply Q_error].
  destruct (String.eqb t t'); [apply R; eauto using ext_trans|apply Q_error].
Qed.

Definition made (absent ig : bool) (t : string) (l : loc) : root := if absent then Absent ig t else Present ig t l.

Lemma set_root_safe r hit absent t w : (forall w', ext w w' -> Q w' (Root (made absent false t (Gen 0)))) -> safeQ (set_root cfg r hit absent t) w.
Proof. intros R. unfold set_root. destruct absent; [now apply ensure_absent_safe|apply R, ext_refl]. Qed.

Lemma added_dir ds w m : good w -> In m ds -> is_dir m = true -> has_dir (odb_at (add_dirs ds w) (Gen 0)) m.
Proof. intros G I D. split; [eapply add_dirs_has; eauto|exact D]. Qed.

Lemma resolve_safe r hit absent t m w : t = git_hash m ->
  (forall w' t', ext w w' -> linked (odb_at w' (Gen 0)) (r_pragma r) m t' -> Q w' (Root (made absent false t' (Gen 0)))) ->
  safeQ (resolve_content cfg r hit absent t) w.
Proof.
  intros T R. unfold resolve_content. destruct (r_pragma r) as [p|].
  - op b w2 S2 G2 E2. destruct S2 as [-> S2]. destruct b.
    + op x w3 S3 G3 E3. destruct S3 as [-> S3]. destruct x as [t'|]; [|apply Q_error].
      symmetry in S3. apply (known_holds _ _ _ _ _ _ _ _ G3) in S3. destruct S3 as (n & m' & A & B & C & D & F).
      apply set_root_safe. intros w' E'. apply R; [eauto using ext_trans|]. cbn [linked].
      exists n, m'. repeat (split; [solve [eauto using dir_le|congruence|destruct E' as (_ & L & _); eauto using dir_le]|]). congruence.
    + op x w3 S3 G3 E3. destruct S3 as (ds & -> & S3). destruct x as [t'|]; [|apply Q_error].
      destruct S3 as (n & m' & A & B & C & D & F & J).
      assert (Dn : has_dir (odb_at (add_dirs ds wa0) (Gen 0)) n) by (destruct Eb0 as (_ & L & _); eauto using dir_le).
      assert (Dm : has_dir (odb_at (add_dirs ds wa0) (Gen 0)) m') by (apply added_dir; auto).
      set (w4 := add_dirs ds wa0) in *. clearbody w4.
      op ok w5 S5 G5 E5. destruct S5 as [-> _]. destruct ok; [|apply Q_error].
      cbn [Proofs.safe]. intros w6 E6 G6. assert (L6 : odb_le (odb_at w4 (Gen 0)) (odb_at w6 (Gen 0))) by (apply (ext_trans _ _ _ E5 E6)).
      split; [exists n, m'; repeat (split; eauto using dir_le)|]. intros ok w7 S7 G7 E7. destruct ok; [|apply Q_error].
      apply set_root_safe. intros w' E'. assert (Ew : ext w4 w') by eauto using ext_trans. apply R; [eauto using ext_trans|].
      cbn [linked]. destruct Ew as (_ & L & _). exists n, m'. repeat (split; [solve [eauto using dir_le|congruence]|]). congruence.
  - apply set_root_safe. intros w' E'. apply R; auto.
Qed.

Lemma extract_safe r absent data w : blob_hash data = a_content (r_archive r) ->
  (forall w' t', ext w w' -> archive_fact (odb_at w' (Gen 0)) r t' -> Q w' (Root (made absent false t' (Gen 0)))) ->
  safeQ (extract_and_import cfg r absent data) w.
Proof.
  intros B R. unfold extract_and_import. op x w2 S2 G2 E2. destruct S2 as [-> S2]. destruct x as [n|]; [|apply Q_error]. destruct S2 as [X D].
  op x w3 S3 G3 E3. destruct x as [t|]; [|apply Q_error]. destruct S3 as (-> & _ & ->).
  assert (N : has_dir (odb_at (add_dirs [n] wa0) (Gen 0)) n) by (apply added_dir; auto; now left).
  set (w4 := add_dirs [n] wa0) in *. clearbody w4.
  cbn [Proofs.safe]. intros w6 E6 G6. destruct E6 as (E6a & L6 & E6b).
  split; [exists data, n; repeat (split; eauto using dir_le)|]. intros ok w7 S7 G7 E7. destruct ok; [|apply Q_error].
  assert (N7 : has_dir (odb_at w7 (Gen 0)) n) by (destruct E7 as (_ & L7 & _); eauto using dir_le).
  assert (E47 : ext w4 w7) by (eapply ext_trans; [|exact E7]; split; auto).
  op x w8 S8 G8 E8. destruct S8 as [-> S8]. destruct x as [t'|]; [|apply Q_error].
  apply entry_sub in S8 as (m & Sm & ->); [|exists n; split; [destruct E8 as (_ & L & _); eauto using dir_le|reflexivity]].
  eapply resolve_safe; [reflexivity|]. intros w' t' E' K. apply R; [eauto 8 using ext_trans|].
  assert (L : odb_le (odb_at w7 (Gen 0)) (odb_at w' (Gen 0))) by (apply (ext_trans _ _ _ E8 E')).
  destruct E' as (_ & L' & _). exists data, n, m. repeat (split; eauto using dir_le, sub_le).
Qed.

Lemma locally_known_safe r w :
  (forall w' t', ext w w' -> archive_fact (odb_at w' (Gen 0)) r t' -> Q w' (Root (made (r_absent r && negb (c_fetch_absent cfg)) false t' (Gen 0)))) ->
  safeQ (locally_known cfg r) w.
Proof.
  intros R. unfold locally_known. op x w2 S2 G2 E2. destruct S2 as [-> S2]. destruct x as [t|]; [|apply Q_error].
  symmetry in S2. apply (known_holds _ _ _ _ _ _ _ _ G2) in S2. destruct S2 as (data & n & A & B & C & D).
  op x w3 S3 G3 E3. destruct S3 as [-> S3]. destruct x as [t'|]; [|apply Q_error].
  assert (L3 : odb_le (odb_at wa (Gen 0)) (odb_at wa0 (Gen 0))) by apply E3.
  apply entry_sub in S3 as (m & Sm & ->); [|exists n; split; eauto using dir_le].
  eapply resolve_safe; [reflexivity|]. intros w' t' E' K. apply R; [eauto using ext_trans|].
  destruct E' as (_ & L' & _). exists data, n, m. subst t. repeat (split; eauto using dir_le, sub_le).
Qed.

Lemma known_in_old_safe r g w :
  (forall w' t', ext w w' -> archive_fact (odb_at w' (Gen 0)) r t' -> Q w' (Root (made (r_absent r && negb (c_fetch_absent cfg)) false t' (Gen 0)))) ->
  safeQ (known_in_old cfg r g) w.
Proof.
  intros R. unfold known_in_old. op x w2 S2 G2 E2. destruct S2 as [-> S2]. destruct x as [t|]; [|apply Q_error].
  symmetry in S2. apply (known_holds _ _ _ _ _ _ _ _ G2) in S2. destruct S2 as (data & n & A & B & C & D).
  op ok w3 S3 G3 E3. destruct S3 as [-> _]. destruct ok; [|apply Q_error].
  op ok w4 S4 G4 E4. destruct S4 as (ds & _ & -> & S4). destruct ok; [|apply Q_error].
  assert (N : has_dir (odb_at (add_dirs ds wa1) (Gen 0)) n).
  { apply added_dir; auto; [|apply C]. apply S4; auto. assert (L : odb_le (odb_at wa (Gen g)) (odb_at wa1 (Gen g))) by (apply (ext_trans _ _ _ E3 Ea1)). eauto using dir_le. }
  set (w5 := add_dirs ds wa1) in *. clearbody w5. clear S4.
  op ok w6 S6 G6 E6. destruct S6 as [-> _]. destruct ok; [|apply Q_error].
  cbn [Proofs.safe]. intros w7 E7 G7. assert (L7 : odb_le (odb_at w5 (Gen 0)) (odb_at w7 (Gen 0))) by (apply (ext_trans _ _ _ E6 E7)).
  split; [exists data, n; repeat (split; eauto using dir_le)|]. intros ok w8 S8 G8 E8. destruct ok; [|apply Q_error].
  apply locally_known_safe. intros w' t' E'. apply R. eauto 8 using ext_trans.
Qed.

Lemma search_old_safe gs k found other : forall w, (forall g w', ext w w' -> good w' -> safeQ (found g) w') ->
  ready (fun _ => True) other w -> good w -> safeQ (search_old gs k found other) w.
Proof.
  induction gs as [|g r IH]; intros w F O Gw; cbn [search_old]; [apply O; auto using ext_refl|].
  op b w2 S2 G2 E2. destruct S2 as [-> _]. destruct b; [auto|]. apply IH; auto; [|eauto using ready_ext].
  intros g' w' E' G'. apply F; eauto using ext_trans.
Qed.
End Any.

(** ** Archives *)
Lemma archive_safe cfg r w : safe (post (cfg, TArchive r)) (archive_root H cfg r) w.
Proof.
  set (Q := post (cfg, TArchive r)). assert (M := post_mono (cfg, TArchive r)). fold Q in M.
  assert (QE : forall w, Q w Error) by (intros; exact Logic.I).
  assert (Known : forall w w' t', ext w w' -> archive_fact (odb_at w' (Gen 0)) r t' -> Q w' (Root (made (r_absent r && negb (c_fetch_absent cfg)) false t' (Gen 0)))).
  { intros w1 w' t' _ F. cbn. unfold made. destruct (r_absent r && negb (c_fetch_absent cfg)); cbn; auto. }
  unfold archive_root. op b w2 S2 G2 E2. destruct S2 as [-> _]. destruct b; [apply locally_known_safe; eauto|].
  apply search_old_safe; auto. { intros g w' _ _. apply known_in_old_safe; eauto. }
  intros w3 E3 G3 _. destruct (r_absent r && negb (c_fetch_absent cfg)) eqn:Ab.
  - match goal with |- safe Q (if c_serve cfg then Do _ (fun x => match x with Found _ _ => _ | NotFound => ?l | Fatal => _ end) else _) _ => set (local := l) end.
    assert (L : forall w, safe Q local w).
    { intros w4. subst local. op x w5 S5 G5 E5. destruct S5 as [-> S5]. destruct x as [data|].
      { apply extract_safe; auto; [apply S5|]. intros. eapply Known; eauto. }
      op x w6 S6 G6 E6. destruct x as [[data|]|]; [| |apply QE].
      - op ok w7 S7 G7 E7. destruct ok; [|apply QE]. op x w8 S8 G8 E8. destruct S8 as [-> S8]. destruct x as [data'|]; [|apply QE].
        apply extract_safe; auto; [apply S8|]. intros. eapply Known; eauto.
      - op x w7 S7 G7 E7. op y w8 S8 G8 E8. destruct S8 as [-> S8]. destruct y as [data'|]; [|apply QE].
        apply extract_safe; auto; [apply S8|]. intros. eapply Known; eauto. }
    clearbody local. destruct (c_serve cfg); [|apply L]. op x w4 S4 G4 E4. destruct S4 as [-> S4]. destruct x as [t d| |]; [|apply L|apply QE].
    cbn. auto.
  - apply content_safe; auto. intros w4 E4 G4 C4. op x w5 S5 G5 E5. destruct S5 as [-> S5]. destruct x as [data|].
    + apply extract_safe; auto; [apply S5|]. intros. eapply Known; eauto.
    + exfalso. apply S5. destruct (in_cas_ext _ _ _ E5 C4) as (d & I & J). eauto.
Qed.

(** ** Trees *)
Lemma contains_tree_has n t : contains_tree H n t = true -> exists m, In m (parts n) /\ is_dir m = true /\ git_hash m = t.
Proof.
  unfold contains_tree. intros E. apply existsb_exists in E as (m & I & B). apply andb_true_iff in B as [B C]. apply String.eqb_eq in C. eauto.
Qed.
Lemma fnode_dec (a b : fnode) : a = b \/ a <> b.
Proof.
  revert b. induction a as [x d|t|es IH] using fnode_ind'; intros [y d'|t'|es']; try (right; discriminate).
  - destruct (Bool.bool_dec x y); [|right; congruence]. destruct (string_dec d d'); [left|right]; congruence.
  - destruct (string_dec t t'); [left|right]; congruence.
  - assert (D : es = es' \/ es <> es').
    { revert es'. induction IH as [|[x c] r C _ IHr]; intros [|[y c'] r']; auto; try (right; discriminate).
      cbn in C. destruct (string_dec x y) as [<-|N]; [|right; congruence]. destruct (C c') as [<-|N]; [|right; congruence].
      destruct (IHr r') as [<-|N]; [now left|right; congruence]. }
    destruct D; [left|right]; congruence.
Qed.

Section Trees.
Variable Q : world -> outcome -> Prop.
Hypothesis Q_mono : forall w w' a, ext w w' -> Q w a -> Q w' a.
Hypothesis Q_error : forall w, Q w Error.
Variable cfg : config.
Lemma move_safe d next w (F : world -> Prop) :
  (forall w' n, ext w w' -> good w' -> has_dir (odb_at w' (Gen 0)) n ->
     match d with
     | Native t => exists n0, is_dir n0 = true /\ git_hash n0 = t /\ n = installed_dir n0
     | Compatible _ => True
     end -> F w') ->
  ready Q F next w -> safe Q (move_cas_tree d next) w.
Proof.
  intros K R. unfold move_cas_tree. op x w2 S2 G2 E2. destruct S2 as [-> S2]. destruct x as [n|]; [|apply Q_error].
  op y w3 S3 G3 E3. destruct y as [t|]; [|apply Q_error]. destruct S3 as (-> & D & ->).
  apply R; [eauto using ext_trans|auto|]. apply (K _ n); [eauto using ext_trans|auto|apply added_dir; auto; now left|].
  destruct d as [h|h]; [|exact Logic.I]. destruct S2 as (n0 & _ & A & B & C). eauto.
Qed.
Lemma tree_in_old_safe gs t next other : forall w, ready Q (fun w => has_tree (odb_at w (Gen 0)) t) next w ->
  ready Q (fun _ => True) other w -> good w -> safe Q (tree_in_old gs t next other) w.
Proof.
  induction gs as [|g r IH]; intros w R O Gw; cbn [tree_in_old]; [apply O; auto using ext_refl|].
  op x w2 S2 G2 E2. destruct S2 as [-> S2]. destruct x as [[]|]; [|apply IH; eauto using ready_ext|apply IH; eauto using ready_ext].
  op ok w3 S3 G3 E3. destruct ok; [|apply Q_error].
  op ok w4 S4 G4 E4. destruct ok; [|apply Q_error]. op ok w5 S5 G5 E5. destruct S5 as [-> S5]. destruct ok; [|apply Q_error].
  apply R; auto; eauto 8 using ext_trans.
Qed.
Lemma git_tree_fetch_safe t next w : ready Q (fun w => tree_fact cfg (odb_at w (Gen 0)) t) next w -> safe Q (git_tree_fetch H cfg t next) w.
Proof.
  intros R. unfold git_tree_fetch.
  set (command := Do RunCommand _).
  assert (Co : forall w', ext w w' -> safe Q command w').
  { intros w' E'. subst command. op x w2 S2 G2 E2. destruct S2 as [-> S2]. destruct x as [n|]; [|apply Q_error].
    destruct (contains_tree H n t) eqn:C; [|apply Q_error]. op y w3 S3 G3 E3. destruct y as [i|]; [|apply Q_error]. destruct S3 as (-> & D & ->).
    op ok w4 S4 G4 E4. destruct S4 as [-> S4]. destruct ok; [|apply Q_error]. apply R; auto; [eauto 8 using ext_trans|]. left. now apply S4. }
  clearbody command.
  assert (Mv : forall w', ext w w' -> safe Q (move_cas_tree (Native t) next) w').
  { intros w' E'. eapply move_safe; [|eauto using ready_ext]. intros w2 n E2 G2 D (n0 & A & B & ->).
    destruct (fnode_dec (installed_dir n0) n0) as [X|X]; [left; exists n0; rewrite X in D; auto|right; left; eauto]. }
  set (rest := if negb (c_compat cfg) && c_remote cfg then _ else _).
  assert (Rest : forall w', ext w w' -> safe Q rest w').
  { intros w' E'. subst rest. destruct (negb (c_compat cfg) && c_remote cfg); [|auto]. op ok w2 S2 G2 E2. destruct ok; [apply Mv|apply Co]; eauto using ext_trans. }
  clearbody rest.
  op x w2 S2 G2 E2. destruct S2 as [-> S2]. destruct x as [[]|]; [apply R; auto; left; now apply S2| |apply Q_error].
  apply tree_in_old_safe; auto. { intros w' E' G' T. apply R; auto; [eauto using ext_trans|now left]. }
  intros w3 E3 G3 _. op b w4 S4 G4 E4. destruct b; [apply Mv; eauto using ext_trans|].
  destruct (c_serve cfg && c_remote cfg) eqn:SR; [|apply Rest; eauto using ext_trans].
  op d w5 S5 G5 E5. destruct d as [d|]; [|apply Rest; eauto 8 using ext_trans].
  op ok w6 S6 G6 E6. destruct ok; [|apply Rest; eauto 8 using ext_trans].
  eapply move_safe; [|eapply ready_ext; [|exact R]; eauto 8 using ext_trans]. intros. right. now right.
Qed.
End Trees.

Lemma tree_safe cfg r w : safe (post (cfg, TTree r)) (tree_root H cfg r) w.
Proof.
  set (Q := post (cfg, TTree r)). assert (M := post_mono (cfg, TTree r)). fold Q in M.
  assert (QE : forall w, Q w Error) by (intros; exact Logic.I).
  unfold tree_root. destruct (t_absent r && negb (c_fetch_absent cfg)) eqn:Ab.
  - assert (A : forall w, safe Q (Ret (Root (Absent (t_ignore r) (t_hash r)))) w) by (intros; cbn; auto).
    set (absent := Ret (Root (Absent (t_ignore r) (t_hash r)))) in *. clearbody absent.
    assert (U : forall w, safe Q (Do (Upload (t_hash r)) (fun ok => if ok then absent else Ret Error)) w).
    { intros w1. op ok w2 S2 G2 E2. destruct ok; [apply A|apply QE]. }
    set (up := Do (Upload (t_hash r)) _) in *. clearbody up.
    destruct (c_serve cfg); [|apply A]. op has w2 S2 G2 E2. destruct has as [[]|]; [apply A| |apply QE].
    destruct (c_remote cfg); [|apply QE]. op b w3 S3 G3 E3. destruct b.
    { op ok w4 S4 G4 E4. destruct ok; [apply A|apply QE]. }
    op x w4 S4 G4 E4. destruct x as [[]|]; [apply U| |apply QE]. op b w5 S5 G5 E5. destruct b; [|apply QE].
    eapply move_safe with (F := fun _ => True); auto. intros w' _ _ _. apply U.
  - apply git_tree_fetch_safe; auto. intros w' E' G' F. cbn. auto 6.
Qed.

(** ** Commits *)
Lemma commit_entry_fact w l c p t : good w ->
  (exists b t0, In b (o_commits (odb_at w l)) /\ commit_id H b = c /\ commit_tree b = Some t0 /\ entry_of H (odb_at w l) t0 p (Some t)) ->
  commit_fact (odb_at w l) c p t.
Proof.
  intros G (b & t0 & I & C & T & R). assert (W : whole (odb_at w l)).
  { destruct l as [g|]; [apply (gen_at_good _ _ _ _ w g G)|apply G]. }
  destruct (W b I) as (t1 & T1 & Ht). rewrite T in T1. injection T1 as <-.
  apply entry_sub in R as (m & Sm & ->); auto. exists t0, m. split; [exact Sm|]. split; [reflexivity|]. left. eauto.
Qed.

Lemma commit_safe cfg r w : safe (post (cfg, TCommit r)) (commit_root cfg r) w.
Proof.
  set (Q := post (cfg, TCommit r)). assert (M := post_mono (cfg, TCommit r)). fold Q in M.
  assert (QE : forall w, Q w Error) by (intros; exact Logic.I).
  assert (QP : forall w l t, l = Gen 0 \/ l = commit_loc r -> commit_fact (odb_at w l) (m_commit r) (m_subdir r) t -> Q w (Root (Present (m_ignore r) t l))) by (intros; cbn; auto).
  assert (Tag : forall w, safe Q (tag_and_set r) w).
  { intros w1. unfold tag_and_set. op ok w2 S2 G2 E2. destruct ok; [|apply QE]. op x w3 S3 G3 E3. destruct S3 as [-> S3]. destruct x as [t|]; [|apply QE].
    apply QP; auto. now apply commit_entry_fact. }
  assert (Net : forall w, safe Q (network_fetch cfg r) w).
  { intros w1. unfold network_fetch. destruct (m_absent r && negb (c_fetch_absent cfg)); [apply QE|].
    op ok w2 S2 G2 E2. destruct ok; [|apply QE]. op x w3 S3 G3 E3. destruct x as [[]|]; [|apply QE|apply QE].
    destruct (place_eqb (commit_loc r) (Gen 0)); [apply Tag|]. op x w4 S4 G4 E4. destruct S4 as [-> S4]. destruct x as [t|]; [|apply QE].
    apply QP; auto. now apply commit_entry_fact. }
  assert (Wr : forall w t, serve_says (QCommit (m_commit r) []) t -> has_tree (odb_at w (Gen 0)) t -> safe Q (write_and_set r t) w).
  { intros w1 t Sv Ht. unfold write_and_set. cbn [Proofs.safe]. intros w2 E2 G2. assert (L2 : odb_le (odb_at w1 (Gen 0)) (odb_at w2 (Gen 0))) by apply E2.
    split; [split; [exact Sv|eauto using tree_le]|]. intros ok w3 S3 G3 E3. destruct ok; [|apply QE].
    op x w4 S4 G4 E4. destruct S4 as [-> S4]. destruct x as [t'|]; [|apply QE]. apply QP; [now left|].
    assert (L4 : odb_le (odb_at w2 (Gen 0)) (odb_at wa (Gen 0))) by (apply (ext_trans _ _ _ E3 E4)).
    apply entry_sub in S4 as (m & Sm & ->); [|eauto using tree_le]. exists t, m. auto. }
  unfold commit_root.
  set (absent := m_absent r && negb (c_fetch_absent cfg)).
  cbv zeta.
  assert (Set_ : forall w l t, l = Gen 0 \/ l = commit_loc r -> commit_fact (odb_at w l) (m_commit r) (m_subdir r) t ->
    safe Q (if absent then ensure_absent cfg (commit_query r) true (m_ignore r) t else Ret (Root (Present (m_ignore r) t l))) w).
  { intros w1 l t L F. destruct absent eqn:Ab; [|now apply QP]. apply ensure_absent_safe; auto.
    intros w' E'. cbn. split; [reflexivity|]. split; [exact Ab|]. left. exists l. split; [exact L|]. destruct E' as (_ & L' & _). eauto using commit_fact_le. }
  op x w2 S2 G2 E2. destruct S2 as [-> S2]. destruct x as [[]|]; [| |apply QE].
  - op x w3 S3 G3 E3. destruct S3 as [-> S3]. destruct x as [t|]; [|apply QE]. apply Set_; auto. now apply commit_entry_fact.
  - op b w3 S3 G3 E3. destruct S3 as [-> S3]. destruct b.
    + op x w4 S4 G4 E4. destruct S4 as [-> S4]. destruct x as [t|]; [|apply QE].
      symmetry in S4. apply (known_holds _ _ _ _ _ _ _ _ G4) in S4. destruct S4 as [Sv Ht].
      op x w5 S5 G5 E5. destruct S5 as [-> S5]. destruct x as [t'|]; [|apply QE]. apply Set_; [now left|].
      assert (L5 : odb_le (odb_at wa1 (Gen 0)) (odb_at wa2 (Gen 0))) by apply E5.
      apply entry_sub in S5 as (m & Sm & ->); [|eauto using tree_le]. exists t, m. auto.
    + assert (Old : forall gs other w, (forall w, safe Q other w) -> safe Q (commit_in_old gs r other) w).
      { induction gs as [|g rest IH]; intros other w4 O; cbn [commit_in_old]; [apply O|].
        op x w5 S5 G5 E5. destruct x as [[]|]; [|now apply IH|now apply IH]. op ok w6 S6 G6 E6. destruct ok; [|apply QE].
        op ok w7 S7 G7 E7. destruct ok; [apply Tag|apply QE]. }
      apply Old. clear w wa Ea Ga E2 Eb wa0 Ea0 Ga0 E3 Eb0 G2 G3 S2 S3. intros w. destruct (c_serve cfg); [|apply Net]. destruct absent eqn:Ab.
      * op x w4 S4 G4 E4. destruct S4 as [-> S4]. destruct x as [t d| |]; [|apply Net|apply QE]. cbn. auto.
      * op x w4 S4 G4 E4. destruct S4 as [-> S4]. destruct x as [t d| |]; [|apply Net|apply QE].
        match goal with |- context [if place_eqb _ _ then ?l else _] => set (from_remote := l) end.
        assert (FR : forall w, safe Q from_remote w).
        { intros w5. subst from_remote. destruct d as [d|]; [|apply Net]. destruct (c_remote cfg); [|apply Net].
          op ok w6 S6 G6 E6. destruct ok; [|apply Net]. op x w7 S7 G7 E7. destruct S7 as [-> S7]. destruct x as [n|]; [|apply QE].
          op y w8 S8 G8 E8. destruct y as [t'|]; [|apply QE]. destruct S8 as (-> & D & ->).
          destruct (String.eqb_spec (git_hash n) t) as [Et|Et]; [|apply QE]. apply Wr; auto. exists n. split; auto. apply added_dir; auto. now left. }
        clearbody from_remote.
        op x w5 S5 G5 E5. destruct S5 as [-> S5]. destruct x as [[]|]; [| |apply QE].
        -- apply Wr; auto. now apply S5.
        -- destruct (place_eqb (commit_loc r) (Gen 0)); [apply FR|]. op x w6 S6 G6 E6. destruct S6 as [-> S6]. destruct x as [[]|]; [|apply FR|apply QE].
           op x w7 S7 G7 E7. destruct S7 as [-> S7]. destruct x as [t'|]; [|apply QE]. apply QP; [now right|].
           assert (L7 : odb_le (odb_at wa1 (commit_loc r)) (odb_at wa2 (commit_loc r))) by apply E7.
           assert (H1 : has_tree (odb_at wa1 (commit_loc r)) t) by now apply S6.
           apply entry_sub in S7 as (m & Sm & ->); [|eauto using tree_le]. exists t, m. auto.
Qed.

(** ** Directories of files *)
Definition so_far (done : list (string * (string * bool))) (fs : list (string * fnode)) : Prop := has_files H done (FDir fs).
Lemma so_far_add done fs x h e data fs' : so_far done fs -> blob_hash data = h -> add_file x (FFile e data) fs = Some fs' ->
  so_far (done ++ [(x, (h, e))]) fs'.
Proof.
  intros (fs0 & E0 & S & A & B) Hd. injection E0 as <-. unfold add_file. destruct (alookup x fs) as [|] eqn:L; [discriminate|].
  intros E. injection E as <-. exists (ainsert x (FFile e data) fs). split; [reflexivity|]. split; [now apply ainsert_sorted|]. split.
  - intros y h' e' I. apply in_app_or in I as [I|[I|[]]].
    + destruct (A _ _ _ I) as (d' & D & K). exists d'. split; auto. rewrite ainsert_lookup. destruct (String.eqb_spec y x) as [->|N]; [congruence|exact K].
    + injection I as <- <- <-. exists data. split; auto. rewrite ainsert_lookup, String.eqb_refl. reflexivity.
  - intros y m. rewrite ainsert_lookup. destruct (String.eqb_spec y x) as [->|N].
    + intros _. exists h, e. apply in_or_app. right. now left.
    + intros K. destruct (B _ _ K) as (h' & e' & I). exists h', e'. apply in_or_app. now left.
Qed.
Lemma link_files_safe (Q : world -> outcome -> Prop) (Q_error : forall w, Q w Error) next all : forall l done fs w, done ++ l = all -> so_far done fs -> good w ->
  (forall w' n, ext w w' -> good w' -> has_files H all n -> safe Q (next n) w') -> safe Q (link_files l fs next) w.
Proof.
  induction l as [|[x [h e]] r IH]; intros done fs w Eq F Gw R; cbn [link_files].
  - rewrite app_nil_r in Eq. subst all. apply R; auto using ext_refl.
  - op b w2 S2 G2 E2. destruct S2 as [-> S2]. destruct b as [data|]; [|apply Q_error]. destruct (file_name x); [|apply Q_error].
    destruct (add_file x (FFile e data) fs) as [fs'|] eqn:Af; [|apply Q_error].
    apply (IH (done ++ [(x, (h, e))])); auto; [now rewrite <- app_assoc|eapply so_far_add; eauto; apply S2|].
    intros w' n E' G'. apply R; auto. eauto using ext_trans.
Qed.
Lemma has_no_files : so_far [] [].
Proof. exists []. split; [reflexivity|]. split; [constructor|]. split; [intros ? ? ? []|intros ? ?; discriminate]. Qed.

Lemma distdir_safe cfg r w : safe (post (cfg, TDistdir r)) (distdir_root H cfg r) w.
Proof.
  set (Q := post (cfg, TDistdir r)). assert (M := post_mono (cfg, TDistdir r)). fold Q in M.
  assert (QE : forall w, Q w Error) by (intros; exact Logic.I).
  unfold distdir_root. op b w2 S2 G2 E2. destruct S2 as [-> _]. destruct b.
  - op x w3 S3 G3 E3. destruct S3 as [-> S3]. destruct x as [t|]; [|apply QE].
    symmetry in S3. apply (known_holds _ _ _ _ _ _ _ _ G3) in S3. change (files_fact (odb_at wa0 (Gen 0)) (distdir_key r) t) in S3. destruct (d_absent r) eqn:Ab.
    + apply ensure_absent_safe; auto. intros w' E'. cbn. split; [reflexivity|]. split; [left|exact Ab]. destruct E' as (_ & L & _). exact (files_fact_le _ _ _ _ (L (Gen 0)) S3).
    + cbn. auto.
  - destruct (memory_tree H (distdir_key r)) as [t|] eqn:Mt; [|apply QE].
    destruct (d_absent r) eqn:Ab.
    + assert (A : forall w, safe Q (Ret (Root (Absent false t))) w) by (intros; cbn; auto).
      set (absent := Ret (Root (Absent false t))) in *. clearbody absent.
      destruct (c_serve cfg); [|apply A]. op has w3 S3 G3 E3. destruct has as [[]|]; [apply A| |apply QE].
      op x w4 S4 G4 E4. destruct x as [t' d| |]; [destruct (String.eqb t t'); [apply A|apply QE]| |apply QE].
      destruct (c_remote cfg); [|apply QE]. op b w5 S5 G5 E5. destruct b.
      { op ok w6 S6 G6 E6. destruct ok; [apply A|apply QE]. }
      op b w6 S6 G6 E6. destruct b; [|apply QE]. op ok w7 S7 G7 E7. destruct ok; [|apply QE]. op ok w8 S8 G8 E8. destruct ok; [apply A|apply QE].
    + assert (Im : forall w, good w -> safe Q (import_from_cas r) w).
      { intros w1 G1. unfold import_from_cas. eapply (link_files_safe Q QE _ (distdir_key r) _ []); [reflexivity|apply has_no_files|exact G1|].
        intros w' n E' G' F. op x w3 S3 G3 E3. destruct x as [i|]; [|apply QE]. destruct S3 as (-> & D & ->).
        assert (N : has_dir (odb_at (add_dirs [n] wa0) (Gen 0)) n) by (apply added_dir; auto; now left).
        set (w4 := add_dirs [n] wa0) in *. clearbody w4. cbn [Proofs.safe]. intros w6 E6 G6. destruct E6 as (_ & L6 & _).
        split; [exists n; split; eauto using dir_le|]. intros ok w7 S7 G7 E7. destruct ok; [|apply QE]. destruct E7 as (_ & L7 & _).
        assert (D7 : has_dir (odb_at w7 (Gen 0)) n) by eauto using dir_le. cbn [Proofs.safe]. subst Q. cbn [post snd fst]. split; [reflexivity|]. split; [reflexivity|]. split; [|exact Ab]. exists n. split; [exact D7|]. split; [reflexivity|exact F]. }
      assert (Al : forall l w, good w -> safe Q (all_content H cfg l (import_from_cas r)) w).
      { induction l as [|a l IH]; intros w1 G1; cbn [all_content]; [now apply Im|]. apply content_safe; auto. intros w' _ G' _. now apply IH. }
      op b w3 S3 G3 E3. destruct b; [now apply Im|]. destruct (c_serve cfg && c_remote cfg); [|now apply Al].
      op x w4 S4 G4 E4. destruct x as [t' d| |]; [destruct (String.eqb t t'); [now apply Al|apply QE]|now apply Al|apply QE].
Qed.

Lemma foreign_safe cfg r w : safe (post (cfg, TForeign r)) (foreign_root H cfg r) w.
Proof.
  set (Q := post (cfg, TForeign r)). assert (M := post_mono (cfg, TForeign r)). fold Q in M.
  assert (QE : forall w, Q w Error) by (intros; exact Logic.I).
  unfold foreign_root. destruct (f_absent r && negb (c_fetch_absent cfg)) eqn:Ab.
  - destruct (memory_tree H (foreign_key r)) as [t|] eqn:Mt; [|apply QE].
    assert (A : forall w, safe Q (Ret (Root (Absent false t))) w) by (intros; cbn; auto).
    set (absent := Ret (Root (Absent false t))) in *. clearbody absent.
    destruct (c_serve cfg); [|apply A]. op has w3 S3 G3 E3. destruct has as [[]|]; [apply A| |apply QE].
    op x w4 S4 G4 E4. destruct x as [t' d| |]; [destruct (String.eqb t t'); [apply A|apply QE]|apply A|apply QE].
  - op b w2 S2 G2 E2. destruct S2 as [-> _]. destruct b.
    + op x w3 S3 G3 E3. destruct S3 as [-> S3]. destruct x as [t|]; [|apply QE].
      symmetry in S3. apply (known_holds _ _ _ _ _ _ _ _ G3) in S3. change (files_fact (odb_at wa0 (Gen 0)) (foreign_key r) t) in S3. cbn. auto.
    + apply content_safe; auto. intros w3 E3 G3 _. eapply (link_files_safe Q QE _ (foreign_key r) _ []); [reflexivity|apply has_no_files|exact G3|].
      intros w' n E' G' F. op x w4 S4 G4 E4. destruct x as [i|]; [|apply QE]. destruct S4 as (-> & D & ->).
      assert (N : has_dir (odb_at (add_dirs [n] wa0) (Gen 0)) n) by (apply added_dir; auto; now left).
      set (w4 := add_dirs [n] wa0) in *. clearbody w4. cbn [Proofs.safe]. intros w6 E6 G6. destruct E6 as (_ & L6 & _).
      split; [exists n; split; eauto using dir_le|]. intros ok w7 S7 G7 E7. destruct E7 as (_ & L7 & _).
      assert (D7 : has_dir (odb_at w7 (Gen 0)) n) by eauto using dir_le. cbn [Proofs.safe]. subst Q. cbn [post snd fst]. split; [reflexivity|]. split; [reflexivity|]. split; [|exact Ab]. exists n. split; [exact D7|]. split; [reflexivity|exact F].
Qed.

(** ** All together *)
Theorem happens_post w rs : happens H extract resolve serve_says w rs ->
  good w /\ forall job a, In (job, Ret a) rs -> post job w a.
Proof.
  intros R. apply (reach_safe _ _ _ _ _ _ post) in R as [G S].
  - split; [exact G|]. intros job a I. exact (S _ _ I).
  - intros job. apply post_mono.
  - intros [cfg []] w1; cbn [setup snd fst];
      [apply archive_safe|apply tree_safe|apply commit_safe|apply distdir_safe|apply foreign_safe].
Qed.
End P.
