(** How just reads what just-mr has written (for C110-C112). *)
From Coq Require Import String Ascii List Bool Arith Lia.
From Verif Require Import Common.Strs Expr.Json Setup.Model Setup.Spec Setup.Chains Setup.Fill.
Import ListNotations.
Local Open Scope string_scope.
Local Open Scope list_scope.
Local Open Scope nat_scope.

(** *** The main repository *)
Lemma least_fold l : forall x, let m := fold_left (fun m y => if str_ltb y m then y else m) l x in
  In m (x :: l) /\ forall k, In k (x :: l) -> k = m \/ str_lt m k.
Proof.
  induction l as [|y l IH]; intros x; cbn [fold_left].
  - split; [now left|]. intros k [<-|[]]. now left.
  - destruct (str_ltb y x) eqn:L.
    + apply str_ltb_lt in L. destruct (IH y) as [A B]. split; [cbn in *; tauto|].
      intros k [<-|[<-|I]].
      * right. destruct (B y (or_introl eq_refl)) as [<-|Q]; [exact L|eapply str_lt_trans; eauto].
      * apply B. now left.
      * apply B. now right.
    + destruct (IH x) as [A B]. split; [cbn in *; tauto|].
      intros k [<-|[<-|I]].
      * apply B. now left.
      * destruct (str_trichotomy y x) as [[Q|Q]|Q].
        -- apply str_ltb_lt in Q. congruence.
        -- subst. apply B. now left.
        -- right. destruct (B x (or_introl eq_refl)) as [<-|R]; [exact Q|eapply str_lt_trans; eauto].
      * apply B. now right.
Qed.
Lemma least_spec l m : least l = Some m -> In m l /\ forall k, In k l -> k = m \/ str_lt m k.
Proof. destruct l as [|x l]; [discriminate|]. cbn [least]. intros E. injection E as <-. apply least_fold. Qed.
Lemma least_unique l m m' : In m l -> (forall k, In k l -> k = m \/ str_lt m k) -> In m' l -> (forall k, In k l -> k = m' \/ str_lt m' k) -> m = m'.
Proof.
  intros A B C D. destruct (B _ C) as [->|X]; [reflexivity|]. destruct (D _ A) as [->|Y]; [reflexivity|]. exfalso. eapply str_lt_asym; eauto.
Qed.

Section S.
Variable fetch : fields -> option json.
Variable order_setup order_include : list string -> list string.
Hypothesis Hs : enumerates order_setup.
Hypothesis Hi : enumerates order_include.
Notation mr_setup := (mr_setup fetch order_setup order_include).

Lemma main_chosen args conf repos given m : explicit_main args conf = Done given ->
  match given with Some m => Some m | None => least (keys repos) end = Some m <-> is_main args conf repos m.
Proof.
  unfold explicit_main, is_main. destruct (a_main args) as [m0|].
  - intros E. injection E as <-. split; [intros Q; left; congruence|]. intros [Q|[[Q _]|[Q _]]]; congruence.
  - destruct (get conf "main") eqn:G; intros E; try discriminate; injection E as <-.
    + apply get_null in G. split.
      * intros Q. apply least_spec in Q as [A B]. right. right. auto.
      * intros [Q|[[_ Q]|(_ & _ & A & B)]]; [discriminate|destruct G; congruence|].
        destruct (least (keys repos)) as [m'|] eqn:L.
        -- apply least_spec in L as [C D]. f_equal. eapply least_unique; eauto.
        -- destruct (keys repos); [destruct A|discriminate].
    + apply get_given in G; [|discriminate]. split; [intros Q; right; left; split; congruence|].
      intros [Q|[[_ Q]|(_ & [N|N] & _)]]; congruence.
Qed.

Lemma mr_setup_inv args conf c : mr_setup args conf = Done c ->
  exists repos main include setup vs,
    alookup "repositories" conf = Some (JObj repos) /\
    explicit_main args conf = Done (j_main c) /\
    main = match j_main c with Some m => Some m | None => least (keys repos) end /\
    (a_all args = false -> forall m, main = Some m ->
       (forall x, In x include <-> reaches repos m x) /\
       (forall x, In x setup <-> reaches repos m x \/ exists y e, reaches repos m y /\ has_entry repos y e /\ has_layer e x)) /\
    (a_all args = true \/ main = None -> include = keys repos /\ setup = keys repos) /\
    setup_all fetch (S (S (length repos))) repos main (a_interactive args) setup = Done vs /\
    assemble repos main (a_interactive args) vs include = Some (j_repos c).
Proof.
  unfold Model.mr_setup. destruct (get conf "repositories") as [| | | | | |repos] eqn:G; try discriminate. apply get_given in G; [|discriminate].
  destruct (explicit_main args conf) as [given| | |] eqn:X; try discriminate.
  set (main := match given with Some m => Some m | None => least (keys repos) end).
  set (lists := match main with Some m => _ | None => _ end).
  assert (forall include setup, lists = Done (include, setup) ->
    (a_all args = false -> forall m, main = Some m ->
       (forall x, In x include <-> reaches repos m x) /\
       (forall x, In x setup <-> reaches repos m x \/ exists y e, reaches repos m y /\ has_entry repos y e /\ has_layer e x)) /\
    (a_all args = true \/ main = None -> include = keys repos /\ setup = keys repos)) as L.
  { intros include setup. unfold lists. destruct main as [m|].
    - destruct (a_all args).
      + intros E. injection E as <- <-. split; [discriminate|auto].
      + destruct (reachable_repositories repos m) as [[i s]| | |] eqn:R; try discriminate. intros E. injection E as <- <-.
        apply reachable_spec in R as [A B]. split; [|intros [?|?]; discriminate]. intros _ m' Q. injection Q as <-. split.
        * intros x. rewrite (Hi i x). apply A.
        * intros x. rewrite (Hs s x). apply B.
    - intros E. injection E as <- <-. split; [discriminate|auto]. }
  destruct lists as [[include setup]| | |]; try discriminate. destruct (L _ _ eq_refl) as [L1 L2].
  destruct (setup_all fetch (S (S (length repos))) repos main (a_interactive args) setup) as [vs| | |] eqn:SA; try discriminate.
  destruct (assemble repos main (a_interactive args) vs include) as [out|] eqn:AS; try discriminate. intros E. injection E as <-.
  exists repos, main, include, setup, vs. cbn. repeat (split; auto).
Qed.

(** The fields written for a repository. *)
Record fields_for (args : mr_args) (repos : fields) (main : option string) (known : string -> Prop) (r : string) (f : fields) : Prop := {
  ff_root : left_out main (a_interactive args) r = false -> exists e d root,
    has_entry repos r e /\ described repos r d /\ written fetch d root /\ alookup "workspace_root" f = Some root /\
    (forall k, In k layers ->
      (not_given e k /\ alookup k f = None) \/
      exists l, alookup k e = Some (JStr l) /\
        ((left_out main (a_interactive args) l = true /\ alookup k f = None) \/
         (left_out main (a_interactive args) l = false /\
            ((~ known l /\ alookup k f = Some JNull) \/
             exists d' root', described repos l d' /\ written fetch d' root' /\ alookup k f = Some root'))));
  ff_left : left_out main (a_interactive args) r = true -> forall k, In k ("workspace_root" :: layers) -> alookup k f = None;
  ff_taken : forall k, In k take_over_keys -> forall v, alookup k f = Some v <-> exists e, has_entry repos r e /\ alookup k e = Some v /\ v <> JNull;
  ff_other : forall k, alookup k f <> None -> In k ("workspace_root" :: layers ++ take_over_keys)
}.

Lemma take_over_root e root : alookup "workspace_root" (take_over e [("workspace_root", root)]) = Some root.
Proof. rewrite take_over_lookup. reflexivity. Qed.

Lemma setup_fields args conf c repos main : mr_setup args conf = Done c -> alookup "repositories" conf = Some (JObj repos) ->
  match j_main c with Some m => Some m | None => least (keys repos) end = main ->
  sorted_keys (j_repos c) /\
  (a_all args = false -> forall m, main = Some m -> forall r, In r (keys (j_repos c)) <-> reaches repos m r) /\
  (a_all args = true \/ main = None -> forall r, In r (keys (j_repos c)) <-> In r (keys repos)) /\
  (forall r f, alookup r (j_repos c) = Some f ->
     fields_for args repos main (fun l => In l (keys repos) \/ a_all args = false /\ main <> None) r f) /\
  (forall r, In r (keys (j_repos c)) -> left_out main (a_interactive args) r = false -> exists e, has_entry repos r e).
Proof.
  intros E R <-. destruct (mr_setup_inv _ _ _ E) as (repos' & main & include & setup & vs & A1 & A2 & A3 & A4 & A5 & A6 & A7).
  rewrite R in A1. injection A1 as <-. rewrite <- A3. destruct (setup_all_done _ _ _ _ _ _ _ A6) as [K V].
  assert (incl include (keys vs)) as Inc.
  { rewrite K. destruct (a_all args) eqn:AA; [destruct A5 as [-> ->]; auto; exact (fun x X => X)|].
    destruct main as [m|]; [|destruct A5 as [-> ->]; auto; exact (fun x X => X)].
    destruct (A4 eq_refl m eq_refl) as [B1 B2]. intros x X. apply B2. left. now apply B1. }
  destruct (assemble_spec fetch repos main (a_interactive args) vs include (j_repos c) (S (S (length repos))) V Inc A7) as (S1 & S2 & S3).
  split; [exact S1|]. split; [|split; [|split]].
  - intros AA m Q r. rewrite S2. now apply (A4 AA m Q).
  - intros Q r. destruct (A5 Q) as [-> _] in S2. apply S2.
  - intros r f F. destruct (S3 r f F) as (f0 & F0 & P1 & P2 & P3 & P4). constructor.
    + intros LO. destruct (setup_repo_done _ _ _ _ _ _ _ F0 LO) as (e & d & root & He & D & W & ->).
      exists e, d, root. repeat (split; auto).
      * apply P2, take_over_root.
      * intros k J. destruct (P3 LO) as (e' & He' & P3'). assert (e' = e) as -> by (unfold has_entry in *; congruence).
        specialize (P3' k J). unfold not_given. destruct (alookup k e) as [w|] eqn:Ek; [|left; auto].
        destruct w; try contradiction; [left; auto|]. right. exists s. split; [reflexivity|].
        destruct (left_out main (a_interactive args) s) eqn:LS; [left; auto|]. right. split; [reflexivity|].
        destruct (alookup s vs) as [g|] eqn:G.
        -- right. apply alookup_In in G. apply V in G. destruct (setup_repo_done _ _ _ _ _ _ _ G LS) as (e2 & d2 & root2 & _ & D2 & W2 & ->).
           exists d2, root2. rewrite take_over_root in P3'. auto.
        -- left. split; [|exact P3']. apply alookup_None in G. rewrite K in G. intros [Q|[AA Q]].
           ++ destruct (a_all args) eqn:AA; [destruct A5 as [_ ->]; auto|]. destruct main as [m|]; [|destruct A5 as [_ ->]; auto].
              apply G. apply (A4 eq_refl m eq_refl). right. exists r, e. split; [apply (A4 eq_refl m eq_refl); apply S2|split; [exact He|exists k; auto]].
              apply alookup_In in F. apply (in_map fst) in F. exact F.
           ++ destruct main as [m|]; [|congruence].
              apply G. apply (A4 AA m eq_refl). right. exists r, e. split; [apply (A4 AA m eq_refl); apply S2|split; [exact He|exists k; auto]].
              apply alookup_In in F. apply (in_map fst) in F. exact F.
    + exact P4.
    + intros k J v. assert (~ In k layers /\ k <> "workspace_root" /\ mem k take_over_keys = true) as (N1 & N2 & N3).
      { cbn in J. destruct J as [<-|[<-|[<-|[<-|[]]]]]; (split; [cbn; intuition discriminate|split; [discriminate|reflexivity]]). }
      rewrite (P1 k N1 N2).
      assert (forall e base, has_entry repos r e -> alookup k base = None ->
        (alookup k (take_over e base) = Some v <-> exists e, has_entry repos r e /\ alookup k e = Some v /\ v <> JNull)) as T.
      { intros e base He Bs. rewrite take_over_lookup, N3. split.
        - intros Q. exists e. split; [exact He|]. destruct (get e k) eqn:G; try congruence; injection Q as <-; (split; [|discriminate]); apply get_given; try discriminate; exact G.
        - intros (e' & He' & Q & NN). assert (e' = e) as -> by (unfold has_entry in *; congruence). rewrite (get_some _ _ _ Q). destruct v; congruence. }
      destruct (left_out main (a_interactive args) r) eqn:LO.
      * rewrite (setup_repo_left_out _ _ _ _ _ _ _ F0 LO). destruct (get repos r) eqn:Gr.
        1-6: split; [discriminate|]; intros (e & He & _); apply get_some in He; congruence.
        apply T; [|reflexivity]. apply get_given in Gr; [exact Gr|discriminate].
      * destruct (setup_repo_done _ _ _ _ _ _ _ F0 LO) as (e & d & root & He & D & W & ->). apply T; [exact He|].
        cbn [alookup]. destruct (String.eqb_spec k "workspace_root"); [contradiction|reflexivity].
    + intros k NN. cbn [In app]. destruct (in_dec string_dec k layers) as [J|J]; [right; apply in_or_app; now left|].
      destruct (string_dec k "workspace_root") as [->|W]; [now left|]. right. apply in_or_app. right.
      rewrite (P1 k J W) in NN. destruct (mem k take_over_keys) eqn:M; [now apply mem_In|]. exfalso. apply NN.
      destruct (left_out main (a_interactive args) r) eqn:LO.
      * rewrite (setup_repo_left_out _ _ _ _ _ _ _ F0 LO). destruct (get repos r); try reflexivity. rewrite take_over_lookup, M. reflexivity.
      * destruct (setup_repo_done _ _ _ _ _ _ _ F0 LO) as (e & d & root & _ & _ & _ & ->). rewrite take_over_lookup, M.
        cbn [alookup]. destruct (String.eqb_spec k "workspace_root"); [contradiction|reflexivity].
  - intros r I LO. destruct (alookup r (j_repos c)) as [f|] eqn:F; [|exfalso; apply alookup_None in F; contradiction].
    destruct (S3 r f F) as (f0 & F0 & _). destruct (setup_repo_done _ _ _ _ _ _ _ F0 LO) as (e & d & root & He & _). eauto.
Qed.
End S.

(** *** Reading roots *)
Section J.
Variable opens : string -> string -> bool.
Variable here : option string.
Definition path_of (f : file_root) : option string := match f with RDir p _ => Some p | _ => None end.

Lemma parse_stands root f : stands_for opens root f -> parse_root opens root = Some (f, path_of f).
Proof.
  intros [p|p|t g O|t g O|t|t|r m n c a|r a]; try reflexivity; cbn; rewrite ?O; try reflexivity; destruct a; reflexivity.
Qed.
Lemma parse_tree_root k l f p : In k ["file"; "file ignore-special"; "git tree"; "git tree ignore-special"] ->
  parse_root opens (JArr (JStr k :: l)) = Some (f, p) -> stands_for opens (JArr (JStr k :: l)) f.
Proof.
  intros I E. cbn in I.
  destruct I as [<-|[<-|[<-|[<-|[]]]]]; cbn in E; destruct l as [|[] l]; try discriminate; destruct l as [|[] l]; try discriminate.
  all: try (injection E as <- _; constructor).
  all: destruct l; try discriminate; destruct (opens _ _) eqn:O in E; try discriminate; injection E as <- _; now constructor.
Qed.
Lemma precomputed_stands p : stands_for opens (precomputed_ws p) (RPrecomputed p).
Proof. destruct p as [[r m n c a]|r a]; [apply sf_computed|apply sf_structure]. Qed.
Lemma parse_written fetch d root f p : fetches_trees fetch -> written fetch d root -> parse_root opens root = Some (f, p) ->
  stands_for opens root f /\ p = path_of f.
Proof.
  intros Ft W E. assert (stands_for opens root f) as S.
  { destruct W as [d ty root T M F|d q P].
    - destruct (Ft _ _ F) as (k & l & -> & K). eapply parse_tree_root; eauto.
    - pose proof (parse_stands _ _ (precomputed_stands q)) as Q. rewrite Q in E. injection E as <- _. apply precomputed_stands. }
  split; [exact S|]. apply parse_stands in S. congruence.
Qed.

Lemma bindings_of_spec known b : forall l, bindings_of known b = Some l ->
  (forall x g, In (x, g) l <-> In (x, JStr g) b) /\ (forall x g, In (x, g) l -> In g known).
Proof.
  induction b as [|[x v] b IH]; intros l E; cbn [bindings_of] in E.
  - injection E as <-. split; [split; intros []|intros ? ? []].
  - destruct v; try discriminate. destruct (mem s known) eqn:M; [|discriminate]. destruct (bindings_of known b) as [l'|]; [|discriminate].
    injection E as <-. destruct (IH _ eq_refl) as [A B]. split.
    + intros y g. cbn [In]. rewrite A. split; (intros [Q|Q]; [left; congruence|auto]).
    + intros y g [Q|Q]; [|eauto]. injection Q as <- <-. now apply mem_In.
Qed.
Lemma bindings_of_total known b : (forall x v, In (x, v) b -> exists s, v = JStr s /\ In s known) -> exists l, bindings_of known b = Some l.
Proof.
  induction b as [|[x v] b IH]; intros A; [eexists; reflexivity|]. destruct (A x v (or_introl eq_refl)) as (s & -> & K).
  destruct IH as [l E]; [intros y w I; apply (A y w); now right|]. cbn. rewrite (proj2 (mem_In s known) K), E. eauto.
Qed.

Lemma infos_of_spec args known main l : forall is, infos_of opens here args known main l = Some is ->
  keys is = keys l /\ forall r i, In (r, i) is -> exists f, In (r, f) l /\ info_of opens here args known (String.eqb r main) f = Some i.
Proof.
  induction l as [|[k d] l IH]; intros is E; cbn [infos_of] in E.
  - injection E as <-. split; [reflexivity|intros ? ? []].
  - unfold obind in E. destruct (info_of opens here args known (String.eqb k main) d) as [i|] eqn:I; [|discriminate].
    destruct (infos_of opens here args known main l) as [is'|]; [|discriminate]. injection E as <-. destruct (IH _ eq_refl) as [A B].
    split; [cbn; now f_equal|]. intros r j [Q|Q].
    + injection Q as <- <-. exists d. split; [now left|exact I].
    + destruct (B _ _ Q) as (f & F & G). exists f. split; [now right|exact G].
Qed.
Lemma infos_of_total args known main l : (forall r f, In (r, f) l -> exists i, info_of opens here args known (String.eqb r main) f = Some i) ->
  exists is, infos_of opens here args known main l = Some is.
Proof.
  induction l as [|[k d] l IH]; intros A; [eexists; reflexivity|]. destruct (A k d (or_introl eq_refl)) as [i I].
  destruct IH as [is E]; [intros r f J; apply A; now right|]. cbn [infos_of]. rewrite I, E. cbn. eauto.
Qed.
End J.
