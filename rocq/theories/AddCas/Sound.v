(** If a directory is imported, the result is what the directory means. *)
From Coq Require Import String Ascii List Bool Arith Lia Permutation.
From Verif Require Import Hex.Model Path.Model Path.Spec GitTree.Model.
From Verif Require Symlinks.Spec Symlinks.Paths Symlinks.PartialMode GitTree.Spec GitTree.Proofs TreeOps.Spec.
From Verif Require Import AddCas.Model AddCas.Spec AddCas.Proofs.
Import ListNotations.
Local Open Scope string_scope.
Local Open Scope list_scope.
Local Open Scope nat_scope.

Section Import.
  Context (H : string -> string) (fs : entry) (limit : nat) (same : bool) (root : path) (md : mode) (st0 : state).
  Context (RH : TreeOps.Spec.raw_ids H) (PF : proper fs) (RD : exists es, at_path fs root = Some (Dir es)).
  Let ns := inodes st0.
  Context (WI : forall p i, at_path fs p = Some (Reg i) -> nth_error ns i <> None).

  (** Links are followed only in modes where the paths they point to are straight. *)
  Definition fine : Prop := md = None \/ md = Some Ignore \/ straight fs root md.

  Definition inside (p : path) : Prop := match md with Some All => True | _ => exists r, p = root ++ r end.

  Lemma inside_snoc p f : inside p -> inside (p ++ [f]).
  Proof.
    unfold inside. destruct md as [[]|]; try tauto; intros [r ->]; exists (r ++ [f]); now rewrite app_assoc.
  Qed.

  (** The next path of the loop is the one the link points to. *)
  Lemma target_points d f c : inside d -> at_path fs (d ++ [f]) = Some (Lnk c) ->
    (md = Some TreeUpwards \/ md = Some TreeAll \/ md = Some All) ->
    ((is_mode md TreeUpwards || is_mode md TreeAll) && negb (PathIsConfined c (rel_to root (d ++ [f]))) = false <->
     exists t, points_to root md d c t) /\
    (forall t, points_to root md d c t -> norm_target (d ++ [f]) c = t /\ inside t).
  Proof.
    intros I A M. destruct (proper_at _ _ _ PF A) as [_ PL]. apply Forall_app in PL. destruct PL as [PL PN].
    assert (PN' : plain f) by (now inversion PN).
    unfold points_to, inside in *. unfold norm_target. rewrite steps_fold, removelast_last.
    assert (K : (exists r, d = root ++ r) ->
       (true && negb (PathIsConfined c (rel_to root (d ++ [f]))) = false <->
          exists t r u, d = root ++ r /\ Symlinks.Spec.target_path r c = Some u /\ t = root ++ u) /\
       (forall t, (exists r u, d = root ++ r /\ Symlinks.Spec.target_path r c = Some u /\ t = root ++ u) ->
          steps (if is_absolute c then [] else d) (split_slash c) = t /\ exists r, t = root ++ r)).
    { intros [r ->]. apply Forall_app in PL. destruct PL as [_ PL]. rewrite <- app_assoc, rel_to_inside.
      rewrite (Symlinks.Paths.confined_target r f c PL PN'). split.
      - destruct (Symlinks.Spec.target_path r c) as [u|] eqn:T; cbn; split; try discriminate; try reflexivity.
        + intros _. exists (root ++ u), r, u. auto.
        + intros (t & r' & u & E & T' & _). apply app_inv_head in E. congruence.
      - intros t (r' & u & E & T & ->). apply app_inv_head in E. subst r'. unfold Symlinks.Spec.target_path in T.
        destruct (is_absolute c); [discriminate|]. split; [now apply steps_go|eauto]. }
    destruct M as [-> | [-> | -> ]]; cbn [is_mode special_eqb orb] in *; [exact (K I)|exact (K I)|].
    cbn. split; [split; [intros _; eauto|reflexivity]|]. intros t ->. now destruct (is_absolute c).
  Qed.

  Lemma at_leads q e : at_path fs q = Some e -> is_lnk e = false -> leads fs root md q q e.
  Proof.
    revert e. induction q as [|f q IH] using rev_ind; intros e A N.
    - injection A as <-. constructor.
    - rewrite at_snoc in A. destruct (at_path fs q) as [[| | |es]|] eqn:B; try discriminate.
      eapply leads_entry; [apply IH; reflexivity|exact A|exact N].
  Qed.

  Lemma DF : exists es, fs = Dir es.
  Proof.
    destruct RD as [es E]. destruct root as [|x r]; cbn in E; [exists es; congruence|].
    destruct fs; try discriminate. eauto.
  Qed.

  Lemma link_snoc p c : at_path fs p = Some (Lnk c) -> exists d f, p = d ++ [f].
  Proof.
    intros A. destruct p as [|f d _] using rev_ind; [|eauto]. destruct DF as [es ->]. discriminate.
  Qed.

  Lemma follow_sound n : straight fs root md -> (md = Some TreeUpwards \/ md = Some TreeAll \/ md = Some All) ->
    forall d f c visited q e, inside d -> at_path fs (d ++ [f]) = Some (Lnk c) ->
    follow fs limit root md n (d ++ [f]) c visited = Some (q, e) ->
    exists t, points_to root md d c t /\ leads fs root md t q e /\ usual e = true /\
      at_path fs q = Some e /\ inside q.
  Proof.
    intros ST M. induction n as [|n IH]; intros d f c visited q e I A E; [discriminate|]. cbn [follow] in E.
    destruct (target_points d f c I A M) as [T1 T2].
    match type of E with (if ?b then _ else _) = _ => destruct b eqn:B; [discriminate|] end.
    destruct (proj1 T1 eq_refl) as [t PT]. destruct (T2 t PT) as [Et It]. rewrite Et in E.
    destruct (lookup fs limit t) as [e'|] eqn:L; [|discriminate].
    assert (At : at_path fs t = Some e').
    { apply (os_sound fs limit [] t e'); [| |exact L].
      - clear - PF PT It M A I. destruct (proper_at _ _ _ PF A) as [_ PL]. apply Forall_app in PL. destruct PL as [PL _].
        unfold points_to in PT.
        assert (PS : forall cs cur, Forall Path.Proofs.sfree cs -> Forall plain cur -> Forall plain (steps cur cs)).
        { induction cs as [|x cs IH]; intros cur F Fc; [exact Fc|]. inversion F; subst. cbn [steps].
          destruct (String.eqb_spec x ""); [now apply IH|]. destruct (String.eqb_spec x "."); [now apply IH|]. cbn [orb].
          destruct (String.eqb_spec x "..").
          - apply IH; [assumption|]. rewrite removelast_firstn_len. apply Forall_forall. intros y Y.
            apply (proj1 (Forall_forall _ _) Fc). rewrite <- (firstn_skipn (Nat.pred (List.length cur)) cur). apply in_or_app. now left.
          - apply IH; [assumption|]. apply Forall_app. split; [exact Fc|]. constructor; [|constructor].
            apply Path.Proofs.okname_plain. repeat split; assumption. }
        destruct M as [-> | [-> | -> ]].
        + destruct PT as (r & u & -> & T & ->). apply Forall_app in PL. destruct PL as [P1 P2].
          apply Forall_app. split; [exact P1|]. exact (Symlinks.Paths.target_plain _ _ _ P2 T).
        + destruct PT as (r & u & -> & T & ->). apply Forall_app in PL. destruct PL as [P1 P2].
          apply Forall_app. split; [exact P1|]. exact (Symlinks.Paths.target_plain _ _ _ P2 T).
        + subst t. destruct (is_absolute c); apply PS; try (apply Path.Proofs.split_sfree); [constructor|exact PL].
      - intros a b c' E' Nb. cbn [app] in E'. exact (ST d f c t a b c' A PT E' Nb). }
    destruct e' as [i|c'| |es].
    - destruct (mem t visited); [discriminate|]. injection E as <- <-. exists t.
      split; [exact PT|]. split; [now apply at_leads|]. repeat split; assumption.
    - destruct (mem t visited); [discriminate|]. destruct (link_snoc _ _ At) as (d' & f' & ->).
      assert (Id' : inside d').
      { clear - It At RD. unfold inside in *.
        assert (K : (exists r, d' ++ [f'] = root ++ r) -> exists r, d' = root ++ r).
        { intros [r E]. destruct r as [|x r _] using rev_ind.
          - rewrite app_nil_r in E. rewrite E in At. destruct RD as [es R]. congruence.
          - rewrite app_assoc in E. apply app_inj_tail in E. destruct E as [-> _]. eauto. }
        destruct md as [[]|]; auto. }
      destruct (IH d' f' c' _ q e Id' At E) as (t' & PT' & L' & U & Aq & Iq).
      exists (d' ++ [f']). split; [exact PT|]. split; [|repeat split; assumption].
      pose proof At as At0. rewrite at_snoc in At. destruct (at_path fs d') as [[| | |es]|] eqn:B'; try discriminate.
      eapply leads_link; [apply at_leads; [exact B'|reflexivity]|exact At|exact PT'|exact L'].
    - discriminate.
    - destruct (mem t visited); [discriminate|]. injection E as <- <-. exists t.
      split; [exact PT|]. split; [now apply at_leads|]. repeat split; assumption.
  Qed.

  (** ** The entries of a directory *)

  (** What an entry at a path stands for. *)
  Definition entry_means (p : path) (e : entry) (m : item) : Prop :=
    (usual e = true /\ means ns fs root md p e m) \/
    (exists c, e = Lnk c /\ m = ILink c /\ kept_link md c) \/
    (exists c t q' e', e = Lnk c /\ replaced_link md c /\ points_to root md (removelast p) c t /\
       leads fs root md t q' e' /\ usual e' = true /\ means ns fs root md q' e' m).

  Definition good_known (st : state) (known : known_paths) : Prop :=
    forall p id t, find_known p known = Some (id, t) ->
      exists e m, at_path fs p = Some e /\ entry_means p e m /\ id = git_id H m /\ t = item_type m /\ has_all H st m.

  Lemma good_known_mono st st' k : grows st st' -> good_known st k -> good_known st' k.
  Proof.
    intros G K p id t F. destruct (K _ _ _ F) as (e & m & A & B & C & D & E). exists e, m.
    repeat split; try assumption. exact (has_all_mono H st st' G m E).
  Qed.

  Lemma good_known_emplace st k p id t e m : good_known st k -> at_path fs p = Some e -> entry_means p e m ->
    id = git_id H m -> t = item_type m -> has_all H st m -> good_known st (emplace p (id, t) k).
  Proof.
    intros K A B C D E q id' t' F. rewrite find_emplace in F. destruct (find_known q k) as [w|] eqn:W.
    - injection F as ->. exact (K _ _ _ W).
    - destruct (path_eqb_spec p q) as [->|N]; [|discriminate]. injection F as <- <-. exists e, m. auto.
  Qed.

  (** What is asked of the import of a directory. *)
  Definition imports (rec : state -> known_paths -> path -> state * known_paths * option string) : Prop :=
    forall st known dir es st' known' r, sane H st -> grows st0 st -> good_known st known -> inside dir ->
      at_path fs dir = Some (Dir es) -> rec st known dir = (st', known', r) ->
      sane H st' /\ grows st st' /\ good_known st' known' /\
      forall id, r = Some id -> exists ms, means_entries ns fs root md dir es ms /\ id = git_id H (IDir ms) /\
        has_all H st' (IDir ms).

  Lemma process_sound rec st known acc name orig p e e0 st' known' r : imports rec ->
    sane H st -> grows st0 st -> good_known st known -> inside p -> at_path fs p = Some e -> usual e = true ->
    at_path fs orig = Some e0 -> (forall m, means ns fs root md p e m -> entry_means orig e0 m) ->
    process H same rec st known acc name orig p e = (st', known', r) ->
    sane H st' /\ grows st st' /\ good_known st' known' /\
    forall acc', r = Some acc' -> exists m, means ns fs root md p e m /\ has_all H st' m /\
      acc' = emplace_back (git_id H m) (name, item_type m) acc.
  Proof.
    intros IR S G K I A U A0 EM E. destruct e as [i|c| |es]; try discriminate U; cbn [process] in E.
    - destruct (nth_error (inodes st) i) as [n|] eqn:N.
      + set (t := if i_exec n then Executable else File) in *.
        destruct (store_link H same t i st) as [s1 o] eqn:SL.
        destruct (store_link_spec H same t i n st s1 o S N eq_refl SL) as (G1 & S1 & R1 & _).
        destruct o as [id|]; injection E as <- <- <-.
        * destruct (R1 id eq_refl) as [-> HO].
          assert (ME : exists m, means ns fs root md p (Reg i) m /\ has_all H s1 m /\ git_id H m = id_text H t (i_data n) /\
                         item_type m = t).
          { destruct (nth_error ns i) as [n0|] eqn:N0.
            - destruct G as [G _]. destruct (G _ _ N0) as (n1 & N1 & D1 & X1).
              assert (n1 = n) as -> by congruence.
              exists (IFile (i_exec n0) (i_data n0)). split; [now constructor|]. cbn [has_all git_id item_type].
              rewrite <- X1, <- D1. fold t. split; [exact HO|]. unfold t. destruct (i_exec n); split; reflexivity.
            - exfalso. exact (WI _ _ A N0). }
          destruct ME as (m & M1 & M2 & M3 & M4). split; [exact S1|]. split; [exact G1|]. split.
          -- apply (good_known_emplace s1 _ orig _ _ e0 m); auto.
             apply (good_known_emplace s1 _ p _ _ (Reg i) m); auto; [exact (good_known_mono st s1 _ G1 K)|].
             left. split; [reflexivity|exact M1].
          -- intros acc' E. injection E as <-. exists m. rewrite M3, M4. auto.
        * split; [exact S1|]. split; [exact G1|]. split; [exact (good_known_mono st s1 _ G1 K)|discriminate].
      + injection E as <- <- <-. split; [exact S|]. split; [apply grows_refl|]. split; [exact K|discriminate].
    - destruct (rec st known p) as [[s1 k1] o] eqn:RE.
      destruct (IR _ _ _ _ _ _ _ S G K I A RE) as (S1 & G1 & K1 & R1).
      destruct o as [id|]; injection E as <- <- <-; (split; [exact S1|]; split; [exact G1|]; split).
      + destruct (R1 id eq_refl) as (ms & M1 & -> & M3).
        assert (MD : means ns fs root md p (Dir es) (IDir ms)) by now constructor.
        apply (good_known_emplace s1 _ orig _ _ e0 (IDir ms)); auto.
        apply (good_known_emplace s1 _ p _ _ (Dir es) (IDir ms)); auto. left. split; [reflexivity|exact MD].
      + intros acc' E. injection E as <-. destruct (R1 id eq_refl) as (ms & M1 & -> & M3). exists (IDir ms).
        split; [now constructor|]. split; [exact M3|reflexivity].
      + exact K1.
      + discriminate.
  Qed.

  Lemma means_entries_cons q x es a b : means_entries ns fs root md q [x] a -> means_entries ns fs root md q es b ->
    means_entries ns fs root md q (x :: es) (a ++ b).
  Proof.
    intros A B. inversion A; subst;
      match goal with X : means_entries _ _ _ _ _ [] _ |- _ => inversion X; subst end; cbn [app].
    - now constructor.
    - now apply means_ignored.
    - now apply means_kept.
    - eapply means_replaced; eauto.
  Qed.

  Definition all_there (st : state) (ms : list (string * item)) : Prop := forall x m, In (x, m) ms -> has_all H st m.

  Lemma read_entry_sound rec fuel dir st known acc name e st' known' r : fine -> imports rec ->
    sane H st -> grows st0 st -> good_known st known -> inside dir -> at_path fs (dir ++ [name]) = Some e ->
    read_entry H fs limit same root md rec fuel dir st known acc name e = (st', known', r) ->
    sane H st' /\ grows st st' /\ good_known st' known' /\
    forall acc', r = Some acc' -> exists ms, means_entries ns fs root md dir [(name, e)] ms /\ all_there st' ms /\
      Permutation (GitTree.Spec.items acc') (GitTree.Spec.items (singles H ms) ++ GitTree.Spec.items acc).
  Proof.
    intros FI IR S G K I A E.
    assert (ID : inside (dir ++ [name])) by now apply inside_snoc.
    assert (NEXT : forall m, Permutation (GitTree.Spec.items (emplace_back (git_id H m) (name, item_type m) acc))
              (GitTree.Spec.items (singles H [(name, m)]) ++ GitTree.Spec.items acc)).
    { intros m. rewrite GitTree.Proofs.emplace_back_perm. reflexivity. }
    assert (ONE : forall s m, has_all H s m -> all_there s [(name, m)]).
    { intros s m HA x m' [X|[]]. injection X as _ <-. exact HA. }
    assert (SELF : sane H st /\ grows st st /\ good_known st known) by (split; [exact S|split; [apply grows_refl|exact K]]).
    assert (SKIP : md = Some Ignore -> usual e = false -> (st, known, Some acc) = (st', known', r) ->
      sane H st' /\ grows st st' /\ good_known st' known' /\
      forall acc', r = Some acc' -> exists ms, means_entries ns fs root md dir [(name, e)] ms /\ all_there st' ms /\
        Permutation (GitTree.Spec.items acc') (GitTree.Spec.items (singles H ms) ++ GitTree.Spec.items acc)).
    { intros M U X. injection X as <- <- <-. destruct SELF as (Q1 & Q2 & Q3). repeat (split; [assumption|]).
      intros acc' X. injection X as <-. exists []. split; [apply means_ignored; auto; constructor|].
      split; [intros x m []|reflexivity]. }
    assert (FAIL : (st, known, None) = (st', known', r) ->
      sane H st' /\ grows st st' /\ good_known st' known' /\
      forall acc', r = Some acc' -> exists ms, means_entries ns fs root md dir [(name, e)] ms /\ all_there st' ms /\
        Permutation (GitTree.Spec.items acc') (GitTree.Spec.items (singles H ms) ++ GitTree.Spec.items acc)).
    { intros X. injection X as <- <- <-. destruct SELF as (Q1 & Q2 & Q3). repeat (split; [assumption|]). discriminate. }
    assert (EMM : forall m, (md = Some Ignore -> usual e = true) -> entry_means (dir ++ [name]) e m ->
              means_entries ns fs root md dir [(name, e)] [(name, m)]).
    { intros m _ [[U M]|[(c & -> & -> & Kc)|(c & t & q' & e' & -> & Rc & Pt & L & U & M)]].
      - apply means_usual; auto; constructor.
      - apply means_kept; auto; constructor.
      - rewrite removelast_last in Pt. eapply means_replaced; eauto; constructor. }
    assert (CACHED : forall id t, (md = Some Ignore -> usual e = true) -> find_known (dir ++ [name]) known = Some (id, t) ->
      (st, known, Some (emplace_back id (name, t) acc)) = (st', known', r) ->
      sane H st' /\ grows st st' /\ good_known st' known' /\
      forall acc', r = Some acc' -> exists ms, means_entries ns fs root md dir [(name, e)] ms /\ all_there st' ms /\
        Permutation (GitTree.Spec.items acc') (GitTree.Spec.items (singles H ms) ++ GitTree.Spec.items acc)).
    { intros id t NI F X. injection X as <- <- <-. destruct SELF as (Q1 & Q2 & Q3). repeat (split; [assumption|]).
      intros acc' X. injection X as <-. destruct (K _ _ _ F) as (e1 & m & A1 & EM & -> & -> & HA).
      assert (e1 = e) as -> by congruence. exists [(name, m)]. split; [now apply EMM|]. split; [now apply ONE|apply NEXT]. }
    assert (PLAIN : usual e = true -> process H same rec st known acc name (dir ++ [name]) (dir ++ [name]) e = (st', known', r) ->
      sane H st' /\ grows st st' /\ good_known st' known' /\
      forall acc', r = Some acc' -> exists ms, means_entries ns fs root md dir [(name, e)] ms /\ all_there st' ms /\
        Permutation (GitTree.Spec.items acc') (GitTree.Spec.items (singles H ms) ++ GitTree.Spec.items acc)).
    { intros U X.
      destruct (process_sound rec st known acc name (dir ++ [name]) (dir ++ [name]) e e st' known' r IR S G K ID A U A) as (Q1 & Q2 & Q3 & Q4); auto.
      { intros m M. left. auto. }
      repeat (split; [assumption|]). intros acc' Y. destruct (Q4 _ Y) as (m & M & HA & ->). exists [(name, m)].
      split; [apply EMM; [auto|left; auto]|]. split; [now apply ONE|apply NEXT]. }
    destruct e as [i|c| |es]; cbn [read_entry] in E.
    - destruct (find_known (dir ++ [name]) known) as [[id t]|] eqn:F; [now apply (CACHED id t)|]. now apply PLAIN.
    - destruct (is_mode md Ignore) eqn:MI.
      { apply SKIP; [|reflexivity|exact E]. destruct md as [[]|]; try discriminate; reflexivity. }
      destruct (find_known (dir ++ [name]) known) as [[id t]|] eqn:F.
      { apply (CACHED id t); auto. intros ->. discriminate MI. }
      match type of E with (if ?b then _ else _) = _ => destruct b eqn:B end.
      + apply andb_prop in B. destruct B as [B1 B2].
        assert (KL : kept_link md c).
        { split; [|now apply Symlinks.PartialMode.nonupwards_downward].
          destruct md as [[]|]; try discriminate B1; auto. }
        destruct (store_bytes H File c st) as [s1 id] eqn:SB.
        destruct (store_bytes_spec H File c st s1 id S SB) as (G1 & S1 & -> & HO). injection E as <- <- <-.
        assert (EM : entry_means (dir ++ [name]) (Lnk c) (ILink c)) by (right; left; eauto).
        split; [exact S1|]. split; [exact G1|]. split.
        * apply (good_known_emplace s1 known (dir ++ [name]) _ _ (Lnk c) (ILink c)); auto. exact (good_known_mono st s1 _ G1 K).
        * intros acc' X. injection X as <-. exists [(name, ILink c)]. split; [apply EMM; auto; intros ->; discriminate MI|].
          split; [now apply ONE|]. apply (NEXT (ILink c)).
      + destruct md as [md'|] eqn:MD; [|now apply FAIL].
        destruct (follow fs limit root (Some md') fuel (dir ++ [name]) c [dir ++ [name]]) as [[p' e']|] eqn:FO; [|now apply FAIL].
        assert (MM : Some md' = Some TreeUpwards \/ Some md' = Some TreeAll \/ Some md' = Some All).
        { destruct md'; auto. discriminate MI. }
        assert (ST : straight fs root (Some md')).
        { destruct FI as [X|[X|X]]; [congruence| |rewrite MD in X; exact X]. exfalso. rewrite MD in X. injection X as ->. discriminate MI. }
        assert (RL : replaced_link (Some md') c).
        { destruct md'; try discriminate MI; [left|right; left|right; right]; auto. split; [reflexivity|].
          intros D. apply Symlinks.PartialMode.nonupwards_downward in D. rewrite D in B. discriminate B. }
        rewrite <- MD in *.
        destruct (follow_sound fuel ST MM dir name c _ p' e' I A FO) as (t & PT & LE & U' & A' & I').
        destruct (process_sound rec st known acc name (dir ++ [name]) p' e' (Lnk c) st' known' r IR S G K I' A' U' A) as (Q1 & Q2 & Q3 & Q4); auto.
        { intros m M. right. right. exists c, t, p', e'. rewrite removelast_last. auto 8. }
        repeat (split; [assumption|]). intros acc' Y. destruct (Q4 _ Y) as (m & M & HA & ->). exists [(name, m)].
        split; [apply EMM; [intros X; rewrite X in MI; discriminate MI|]|split; [now apply ONE|apply NEXT]].
        right. right. exists c, t, p', e'. rewrite removelast_last. auto 8.
    - destruct (is_mode md Ignore) eqn:MI; [|now apply FAIL].
      apply SKIP; [|reflexivity|exact E]. destruct md as [[]|]; try discriminate; reflexivity.
    - destruct (find_known (dir ++ [name]) known) as [[id t]|] eqn:F; [now apply (CACHED id t)|]. now apply PLAIN.
  Qed.

  Lemma all_there_mono st st' ms : grows st st' -> all_there st ms -> all_there st' ms.
  Proof. intros G A x m X. exact (has_all_mono H st st' G m (A x m X)). Qed.

  Lemma read_dir_sound rec fuel dir : fine -> imports rec -> inside dir -> forall es st known acc st' known' r,
    sane H st -> grows st0 st -> good_known st known ->
    (forall f e, In (f, e) es -> at_path fs (dir ++ [f]) = Some e) ->
    read_dir H fs limit same root md rec fuel dir st known acc es = (st', known', r) ->
    sane H st' /\ grows st st' /\ good_known st' known' /\
    forall acc', r = Some acc' -> exists ms, means_entries ns fs root md dir es ms /\ all_there st' ms /\
      Permutation (GitTree.Spec.items acc') (GitTree.Spec.items (singles H ms) ++ GitTree.Spec.items acc).
  Proof.
    intros FI IR I. induction es as [|[f e] es IH]; intros st known acc st' known' r S G K A E; cbn [read_dir] in E.
    - injection E as <- <- <-. split; [exact S|]. split; [apply grows_refl|]. split; [exact K|].
      intros acc' X. injection X as <-. exists []. split; [constructor|]. split; [intros x m []|reflexivity].
    - destruct (read_entry H fs limit same root md rec fuel dir st known acc f e) as [[s1 k1] o] eqn:RE.
      destruct (read_entry_sound rec fuel dir st known acc f e s1 k1 o FI IR S G K I (A _ _ (or_introl eq_refl)) RE) as (S1 & G1 & K1 & R1).
      destruct o as [acc1|].
      + destruct (IH s1 k1 acc1 st' known' r S1 (grows_trans _ _ _ G G1) K1) as (S2 & G2 & K2 & R2); [intros; apply A; now right|exact E|].
        split; [exact S2|]. split; [exact (grows_trans _ _ _ G1 G2)|]. split; [exact K2|]. intros acc' ->.
        destruct (R1 _ eq_refl) as (ms1 & M1 & T1 & P1). destruct (R2 _ eq_refl) as (ms2 & M2 & T2 & P2).
        exists (ms1 ++ ms2). split; [now apply means_entries_cons|]. split.
        * intros x m X. apply in_app_or in X. destruct X as [X|X]; [exact (all_there_mono _ _ _ G2 T1 _ _ X)|exact (T2 _ _ X)].
        * rewrite P2, P1. rewrite !items_singles, map_app, app_assoc. apply Permutation_app_tail. apply Permutation_app_comm.
      + injection E as <- <- <-. split; [exact S1|]. split; [exact G1|]. split; [exact K1|discriminate].
  Qed.

  Lemma means_names q es ms : means_entries ns fs root md q es ms ->
    (forall x m, In (x, m) ms -> In x (map fst es)) /\ (NoDup (map fst es) -> NoDup (map fst ms)).
  Proof.
    intros M. induction M as [q|q f e m es ms U ME M IH|q f e es ms MI U M IH|q f c es ms KL M IH|q f c t q' e m es ms RL PT LE U ME M IH];
      cbn [map fst].
    1: { split; [intros x m []|auto]. }
    2: { destruct IH as [A B]. split; [intros x m X; right; exact (A _ _ X)|]. intros N. inversion N; auto. }
    all: destruct IH as [A B]; split.
    1,3,5: intros x m' [X|X]; [left; congruence|right; exact (A _ _ X)].
    all: intros N; inversion N as [|? ? N1 N2]; subst; constructor; [|now apply B];
      intros X; apply N1; apply in_map_iff in X; destruct X as ((x & m') & <- & X); exact (A _ _ X).
  Qed.

  Theorem create_sound : fine -> forall n stack, imports (create H fs limit same root md n stack).
  Proof.
    intros FI. induction n as [|n IH]; intros stack st known dir es st' known' r S G K I A E; cbn [create] in E.
    { injection E as <- <- <-. split; [exact S|]. split; [apply grows_refl|]. split; [exact K|discriminate]. }
    assert (FAIL : (st, known, None) = (st', known', r) -> sane H st' /\ grows st st' /\ good_known st' known' /\
      forall id, r = Some id -> exists ms, means_entries ns fs root md dir es ms /\ id = git_id H (IDir ms) /\
        has_all H st' (IDir ms)).
    { intros X. injection X as <- <- <-. split; [exact S|]. split; [apply grows_refl|]. split; [exact K|discriminate]. }
    destruct (proper_at _ _ _ PF A) as [PD PL].
    destruct (lookup fs limit dir) as [e|] eqn:L; [|now apply FAIL].
    assert (e = Dir es) as ->.
    { unfold lookup in L. apply os_sound in L; [cbn [app] in L; congruence|exact PL|].
      intros a b c E' Nb X. cbn [app] in E'. subst dir. destruct (at_prefix _ _ _ _ A Nb). congruence. }
    destruct (mem dir stack); [now apply FAIL|].
    destruct (read_dir H fs limit same root md (create H fs limit same root md n (dir :: stack)) n dir st known [] es) as [[s1 k1] o] eqn:RD'.
    inversion PD as [| | |es' ND VN PR]; subst es'.
    assert (AE : forall f e, In (f, e) es -> at_path fs (dir ++ [f]) = Some e).
    { intros f e X. rewrite at_snoc, A. now apply In_entry_of. }
    destruct (read_dir_sound _ n dir FI (IH (dir :: stack)) I es st known [] s1 k1 o S G K AE RD') as (S1 & G1 & K1 & R1).
    destruct o as [acc|].
    - destruct (store_bytes H Tree (tree_content acc) s1) as [s2 id] eqn:SB.
      destruct (store_bytes_spec H Tree _ s1 s2 id S1 SB) as (G2 & S2 & -> & HO). injection E as <- <- <-.
      split; [exact S2|]. split; [exact (grows_trans _ _ _ G1 G2)|]. split; [exact (good_known_mono _ _ _ G2 K1)|].
      intros id X. injection X as <-. destruct (R1 _ eq_refl) as (ms & M & T & P). rewrite app_nil_r in P.
      destruct (means_names _ _ _ M) as [N1 N2].
      assert (C : tree_content acc = dir_text H ms).
      { apply content_singles; [exact RH|now apply N2| |exact P].
        intros x m X. specialize (N1 _ _ X). apply in_map_iff in N1. destruct N1 as ((y & e) & <- & Y). exact (proj2 (VN _ _ Y)). }
      exists ms. rewrite C in *. split; [exact M|]. split; [reflexivity|]. cbn [has_all]. split; [exact HO|].
      assert (T' : all_there s2 ms) by exact (all_there_mono _ _ _ G2 T). clear - T'.
      induction ms as [|[x m] ms IHm]; [exact Logic.I|]. split; [exact (T' x m (or_introl eq_refl))|].
      apply IHm. intros y k Y. exact (T' y k (or_intror Y)).
    - injection E as <- <- <-. split; [exact S1|]. split; [exact G1|]. split; [exact K1|discriminate].
  Qed.
End Import.
