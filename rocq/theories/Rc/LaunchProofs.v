(** * The command just-mr runs: proofs *)

From Coq Require Import String Ascii List Arith Lia Bool ZArith NArith.
Import ListNotations.
From Verif.Rc Require Spec Proofs.
From Verif.Rc Require Import Model Launch LaunchSpec.
Open Scope string_scope.
Open Scope list_scope.
Open Scope nat_scope.

Lemma call_just_exec W a s rest defs plain fwd cmd :
  call_just W a (Call (Some s) rest defs plain fwd) = Exec cmd ->
  let c := Call (Some s) rest defs plain fwd in
  let fl := match find_flags s known_subcommands with Some f => f | None => no_flags end in
  exists conf ds inv dir,
    (f_config fl = true -> w_locks W = true /\ w_setup W = Some conf) /\
    (if f_defines fl then define_options W a c else Some []) = Some ds /\
    log_dir W (a_invlog a) = (true, dir) /\
    invlog_options fl (a_invlog a) dir = Some inv /\
    cmd = (match a_just a with Some j => j | None => "just" end) :: s ::
       (head_options W fl conf a c ++ log_options W a c ++ ds
        ++ (if f_remote fl then remote_options W a else []) ++ endpoint_options fl a)
       ++ rc_args (Some s) a ++ inv ++ rest.
Proof.
  intros H c fl. unfold call_just in H. cbn [j_subcmd j_extra] in H. fold fl in H. fold c in H.
  assert (K : forall conf,
    match (if f_defines fl then define_options W a c else Some []) with
    | None => ClargsError
    | Some ds =>
        let '(id_ok, dir) := log_dir W (a_invlog a) in
        if id_ok
        then match invlog_options fl (a_invlog a) dir with
             | None => ClargsError
             | Some inv =>
                 if metadata_ok (a_invlog a) dir
                 then Exec ((match a_just a with Some j => j | None => "just" end)
                            :: [s] ++ head_options W fl conf a c ++ log_options W a c ++ ds
                            ++ (if f_remote fl then remote_options W a else [])
                            ++ endpoint_options fl a ++ rc_args (Some s) a ++ inv ++ rest)
                 else ClargsError
             end
        else ClargsError
    end = Exec cmd ->
    exists ds inv dir,
    (if f_defines fl then define_options W a c else Some []) = Some ds /\
    log_dir W (a_invlog a) = (true, dir) /\
    invlog_options fl (a_invlog a) dir = Some inv /\
    cmd = (match a_just a with Some j => j | None => "just" end) :: s ::
       (head_options W fl conf a c ++ log_options W a c ++ ds
        ++ (if f_remote fl then remote_options W a else []) ++ endpoint_options fl a)
       ++ rc_args (Some s) a ++ inv ++ rest).
  { intros conf G. destruct (if f_defines fl then define_options W a c else Some []) as [ds|]; [|discriminate].
    destruct (log_dir W (a_invlog a)) as [id_ok dir]. destruct id_ok; [|discriminate].
    destruct (invlog_options fl (a_invlog a) dir) as [inv|] eqn:I; [|discriminate].
    destruct (metadata_ok (a_invlog a) dir); [|discriminate]. injection G as <-.
    exists ds, inv, dir. split; [reflexivity|]. split; [reflexivity|]. split; [exact I|].
    cbn [app]. rewrite <- !app_assoc. reflexivity. }
  destruct (f_config fl) eqn:Q.
  - destruct (w_locks W) eqn:L; [|discriminate]. destruct (w_setup W) as [conf|] eqn:S; [|discriminate].
    destruct (K conf H) as [ds [inv [dir R]]]. exists conf, ds, inv, dir. split; [auto|exact R].
  - destruct (K "" H) as [ds [inv [dir R]]]. exists "", ds, inv, dir. split; [discriminate|exact R].
Qed.

(** ** Parsing what is generated *)
Lemma options_app l1 p1 l2 p2 : options l1 p1 -> options l2 p2 -> options (l1 ++ l2) (p1 ++ p2).
Proof. intros H. induction H; intros; cbn [app]; [assumption|constructor; auto|constructor; auto]. Qed.

Lemma options_opt name v : is_flag name = false ->
  options (opt name v) (match v with Some x => [(name, Some x)] | None => [] end).
Proof. intros F. destruct v; cbn [opt]; [|constructor]. constructor; [exact F|constructor]. Qed.

Lemma options_flag name b : is_flag name = true ->
  options (flag name b) (if b then [(name, None)] else []).
Proof. intros F. destruct b; cbn [flag]; [|constructor]. constructor; [exact F|constructor]. Qed.

Lemma options_flat name l : is_flag name = false ->
  options (flat_map (fun p => [name; p]) l) (map (fun p => (name, Some p)) l).
Proof. intros F. induction l; cbn [flat_map map app]; constructor; auto. Qed.

(** The pairs of the generated part, in order, spelled out. *)
Definition some_pair (name : string) (v : option string) : list (string * option string) :=
  match v with Some x => [(name, Some x)] | None => [] end.

Lemma head_pairs W fl conf a c :
  options (head_options W fl conf a c)
   ((if f_config fl then [("-C", Some conf)] else [])
    ++ (if (f_build_root fl && j_forward_root c)%bool then some_pair "--local-build-root" (a_root a) else [])
    ++ (if f_launch fl
        then match a_launcher a with
             | Some l => if list_eq_dec string_dec l ["env"; "--"] then [] else [("--local-launcher", Some (w_show_list W l))]
             | None => [] end
        else [])).
Proof.
  unfold head_options. apply options_app; [|apply options_app].
  - destruct (f_config fl); [|constructor]. apply os_value; [reflexivity|constructor].
  - destruct (f_build_root fl && j_forward_root c)%bool; [|constructor]. now apply options_opt.
  - destruct (f_launch fl); [|constructor]. destruct (a_launcher a) as [l|]; [|constructor].
    unfold list_eqb. destruct (list_eq_dec string_dec l ["env"; "--"]); [constructor|].
    apply os_value; [reflexivity|constructor].
Qed.

Lemma log_pairs W a c :
  options (log_options W a c)
   ((match a_log_files a with [] => [] | l => ("--log-append", None) :: map (fun f => ("-f", Some f)) l end)
    ++ (match a_log_limit a with Some z => if Z.eq_dec z 3 then [] else [("--log-limit", Some (w_num W z))] | None => [] end)
    ++ some_pair "--restrict-stderr-log-limit" (option_map (w_num W) (a_restrict a))
    ++ (if j_plain_log c then [("--plain-log", None)] else [])).
Proof.
  unfold log_options. apply options_app; [|apply options_app; [|apply options_app]].
  - destruct (a_log_files a) as [|x l]; [constructor|]. apply os_flag; [reflexivity|]. now apply options_flat.
  - destruct (a_log_limit a) as [z|]; [|constructor].
    destruct (Z.eqb_spec z 3) as [->|N]; destruct (Z.eq_dec _ 3) as [Q|Q]; try congruence; try constructor.
    + reflexivity.
    + constructor.
  - now apply options_opt.
  - now apply options_flag.
Qed.

Lemma remote_pairs W a :
  options (remote_options W a)
   ((if a_compatible a then [("--compatible", None)] else [])
    ++ (match a_remote a with Some x => ("-r", Some x) :: some_pair "--remote-instance-name" (a_instance a) | None => [] end)
    ++ some_pair "--tls-ca-cert" (a_ca a) ++ some_pair "--tls-client-cert" (a_cert a)
    ++ some_pair "--tls-client-key" (a_key a)
    ++ some_pair "--max-attempts" (option_map (w_num W) (a_attempts a))
    ++ some_pair "--initial-backoff-seconds" (option_map (w_num W) (a_initial a))
    ++ some_pair "--max-backoff-seconds" (option_map (w_num W) (a_max a))).
Proof.
  unfold remote_options. apply options_app; [now apply options_flag|].
  apply options_app.
  { destruct (a_remote a); [|constructor]. cbn [app]. apply os_value; [reflexivity|]. now apply options_opt. }
  repeat (apply options_app; [now apply options_opt|]). now apply options_opt.
Qed.

Lemma endpoint_pairs fl a :
  options (endpoint_options fl a)
   ((if f_dispatch fl then some_pair "--endpoint-configuration" (a_endpoint a) else [])
    ++ (if f_serve fl then some_pair "-R" (a_serve a) else [])
    ++ (if f_props fl then map (fun p => ("--remote-execution-property", Some p)) (a_props a) else [])).
Proof.
  unfold endpoint_options. apply options_app; [|apply options_app].
  - destruct (f_dispatch fl); [now apply options_opt|constructor].
  - destruct (f_serve fl); [now apply options_opt|constructor].
  - destruct (f_props fl); [now apply options_flat|constructor].
Qed.

Lemma define_pairs W a c ds :
  define_options W a c = Some ds ->
  exists m, overlay_defines W (j_defines c) [] = Some m /\
    options ds (some_pair "-c" (a_config a) ++ match m with [] => [] | _ => [("-D", Some (w_show W m))] end).
Proof.
  unfold define_options. destruct (overlay_defines W (j_defines c) []) as [m|]; [|discriminate].
  intros [= <-]. exists m. split; [reflexivity|].
  apply options_app; [now apply options_opt|].
  destruct m; [constructor|]. apply os_value; [reflexivity|constructor].
Qed.

(** ** The flags of the subcommands *)
Definition fl_of (s : string) : flags :=
  match find_flags s known_subcommands with Some f => f | None => no_flags end.

Lemma fl_spec s :
  (f_config (fl_of s) = true <-> In s with_repos) /\
  (f_build_root (fl_of s) = true <-> In s with_root) /\
  (f_launch (fl_of s) = true <-> In s with_actions) /\
  (f_defines (fl_of s) = true <-> In s with_repos) /\
  (f_remote (fl_of s) = true <-> In s with_remote) /\
  (f_props (fl_of s) = true <-> In s with_actions) /\
  (f_serve (fl_of s) = true <-> In s with_repos) /\
  (f_dispatch (fl_of s) = true <-> In s with_actions) /\
  (f_build (fl_of s) = true <-> In s ["build"; "install"; "rebuild"]).
Proof.
  unfold fl_of, known_subcommands, find_flags, with_root, with_remote, with_repos, with_actions.
  cbn [app].
  destruct (String.eqb_spec s "version") as [->|N1];
    [cbn; repeat split; intros; intuition discriminate|].
  destruct (String.eqb_spec s "describe") as [->|N2]; [cbn; repeat split; intros; intuition discriminate|].
  destruct (String.eqb_spec s "analyse") as [->|N3]; [cbn; repeat split; intros; intuition discriminate|].
  destruct (String.eqb_spec s "build") as [->|N4]; [cbn; repeat split; intros; intuition discriminate|].
  destruct (String.eqb_spec s "install") as [->|N5]; [cbn; repeat split; intros; intuition discriminate|].
  destruct (String.eqb_spec s "rebuild") as [->|N6]; [cbn; repeat split; intros; intuition discriminate|].
  destruct (String.eqb_spec s "add-to-cas") as [->|N7]; [cbn; repeat split; intros; intuition discriminate|].
  destruct (String.eqb_spec s "install-cas") as [->|N8]; [cbn; repeat split; intros; intuition discriminate|].
  destruct (String.eqb_spec s "gc") as [->|N9]; [cbn; repeat split; intros; intuition discriminate|].
  cbn [f_config f_build_root f_launch f_defines f_remote f_props f_serve f_dispatch f_build no_flags In].
  repeat split; intros; intuition congruence.
Qed.

Lemma in_some_pair o v n x : In (o, v) (some_pair n x) <-> (o = n /\ exists y, x = Some y /\ v = Some y).
Proof.
  destruct x as [y|]; cbn [some_pair In].
  - split.
    + intros [[= <- <-]|[]]. eauto.
    + intros [-> [z [[= <-] ->]]]. now left.
  - split; [tauto|]. intros [_ [z [H _]]]. discriminate.
Qed.

Lemma in_if (b : bool) {A} (x : A) l : In x (if b then l else []) <-> (b = true /\ In x l).
Proof. destruct b; cbn [In]; intuition discriminate. Qed.

Definition gen_pairs (W : world) (a : args) (c : call) (s conf : string) (m : list (string * value))
  : list (string * option string) :=
  let fl := fl_of s in
  ((if f_config fl then [("-C", Some conf)] else [])
    ++ (if (f_build_root fl && j_forward_root c)%bool then some_pair "--local-build-root" (a_root a) else [])
    ++ (if f_launch fl
        then match a_launcher a with
             | Some l => if list_eq_dec string_dec l ["env"; "--"] then [] else [("--local-launcher", Some (w_show_list W l))]
             | None => [] end
        else []))
  ++ ((match a_log_files a with [] => [] | l => ("--log-append", None) :: map (fun f => ("-f", Some f)) l end)
    ++ (match a_log_limit a with Some z => if Z.eq_dec z 3 then [] else [("--log-limit", Some (w_num W z))] | None => [] end)
    ++ some_pair "--restrict-stderr-log-limit" (option_map (w_num W) (a_restrict a))
    ++ (if j_plain_log c then [("--plain-log", None)] else []))
  ++ (if f_defines fl then some_pair "-c" (a_config a) ++ match m with [] => [] | _ => [("-D", Some (w_show W m))] end
      else [])
  ++ (if f_remote fl then
       ((if a_compatible a then [("--compatible", None)] else [])
        ++ (match a_remote a with Some x => ("-r", Some x) :: some_pair "--remote-instance-name" (a_instance a) | None => [] end)
        ++ some_pair "--tls-ca-cert" (a_ca a) ++ some_pair "--tls-client-cert" (a_cert a)
        ++ some_pair "--tls-client-key" (a_key a)
        ++ some_pair "--max-attempts" (option_map (w_num W) (a_attempts a))
        ++ some_pair "--initial-backoff-seconds" (option_map (w_num W) (a_initial a))
        ++ some_pair "--max-backoff-seconds" (option_map (w_num W) (a_max a)))
      else [])
  ++ ((if f_dispatch fl then some_pair "--endpoint-configuration" (a_endpoint a) else [])
    ++ (if f_serve fl then some_pair "-R" (a_serve a) else [])
    ++ (if f_props fl then map (fun p => ("--remote-execution-property", Some p)) (a_props a) else [])).

Lemma gen_passed W a c s conf m o v :
  (f_config (fl_of s) = true -> w_setup W = Some conf) ->
  In (o, v) (gen_pairs W a c s conf m) <-> passed W a c m s o v.
Proof.
  intros HC. destruct (fl_spec s) as [F1 [F2 [F3 [F4 [F5 [F6 [F7 [F8 F9]]]]]]]].
  unfold gen_pairs. repeat rewrite in_app_iff.
  rewrite (in_if (f_config _)), (in_if (f_build_root _ && _)), (in_if (f_launch _)), (in_if (j_plain_log c)),
    (in_if (f_defines _)), (in_if (f_remote _)), (in_if (f_dispatch _)), (in_if (f_serve _)), (in_if (f_props _)).
  repeat rewrite in_app_iff. rewrite (in_if (a_compatible a)).
  repeat rewrite in_some_pair.
  split.
  - intros H.
    repeat match goal with
    | H : _ \/ _ |- _ => destruct H as [H|H]
    end.
    + destruct H as [T [[= <- <-]|[]]]. apply p_repos; [now apply F1|auto].
    + destruct H as [T [-> [y [Q ->]]]]. apply andb_true_iff in T. destruct T as [T1 T2].
      apply p_root; [now apply F2|exact T2|exact Q].
    + destruct H as [T H]. destruct (a_launcher a) as [l|] eqn:L; [|destruct H].
      destruct (list_eq_dec string_dec l ["env"; "--"]) as [Q|Q]; [destruct H|].
      destruct H as [[= <- <-]|[]]. apply p_launcher; [now apply F3|exact L|exact Q].
    + destruct (a_log_files a) as [|x l] eqn:L; [destruct H|]. destruct H as [[= <- <-]|H].
      * apply p_append. now rewrite L.
      * apply in_map_iff in H. destruct H as [f [[= <- <-] I]]. apply p_log. now rewrite L.
    + destruct (a_log_limit a) as [z|] eqn:L; [|destruct H]. destruct (Z.eq_dec z 3); [destruct H|].
      destruct H as [[= <- <-]|[]]. now apply p_limit.
    + destruct H as [-> [y [Q ->]]]. destruct (a_restrict a) as [z|] eqn:L; [|discriminate].
      injection Q as <-. now apply p_restrict.
    + destruct H as [T [[= <- <-]|[]]]. now apply p_plain.
    + destruct H as [T [[-> [y [Q ->]]]|H]].
      * apply p_config; [now apply F4|exact Q].
      * destruct m as [|e m']; [destruct H|]. destruct H as [[= <- <-]|[]].
        apply p_defines; [now apply F4|discriminate].
    + destruct H as [T H]. apply F5 in T.
      repeat match goal with H : _ \/ _ |- _ => destruct H as [H|H] end.
      * destruct H as [Q [[= <- <-]|[]]]. now apply p_compatible.
      * destruct (a_remote a) as [x|] eqn:R; [|destruct H]. destruct H as [[= <- <-]|H].
        -- now apply p_address.
        -- apply in_some_pair in H. destruct H as [-> [y [Q ->]]]. now apply (p_instance _ _ _ _ _ x y).
      * destruct H as [-> [y [Q ->]]]. now apply p_ca.
      * destruct H as [-> [y [Q ->]]]. now apply p_cert.
      * destruct H as [-> [y [Q ->]]]. now apply p_key.
      * destruct H as [-> [y [Q ->]]]. destruct (a_attempts a) as [z|] eqn:L; [|discriminate].
        injection Q as <-. now apply p_attempts.
      * destruct H as [-> [y [Q ->]]]. destruct (a_initial a) as [z|] eqn:L; [|discriminate].
        injection Q as <-. now apply p_initial.
      * destruct H as [-> [y [Q ->]]]. destruct (a_max a) as [z|] eqn:L; [|discriminate].
        injection Q as <-. now apply p_max.
    + destruct H as [T [-> [y [Q ->]]]]. apply p_endpoint; [now apply F8|exact Q].
    + destruct H as [T [-> [y [Q ->]]]]. apply p_serve; [now apply F7|exact Q].
    + destruct H as [T H]. apply in_map_iff in H. destruct H as [f [[= <- <-] I]].
      apply p_property; [now apply F6|exact I].
  - intros H. destruct H as
      [conf' S Q|r S Q1 Q2|l S Q N|N|f I|z Q N|z Q|Q|f S Q|S N|S Q|x S Q|x y S Q1 Q2|x S Q|x S Q|x S Q
      |z S Q|z S Q|z S Q|f S Q|x S Q|x S I].
    + apply F1 in S. left. left. split; [exact S|]. left. specialize (HC S). congruence.
    + apply F2 in S. left. right. left. split; [now rewrite S, Q1|]. eauto.
    + apply F3 in S. left. right. right. split; [exact S|]. rewrite Q.
      destruct (list_eq_dec string_dec l ["env"; "--"]); [congruence|]. now left.
    + right. left. left. destruct (a_log_files a); [congruence|]. now left.
    + right. left. left. destruct (a_log_files a); [destruct I|]. right. apply in_map_iff. eauto.
    + right. left. right. left. rewrite Q. destruct (Z.eq_dec z 3); [congruence|]. now left.
    + right. left. right. right. left. rewrite Q. cbn [option_map]. eauto.
    + right. left. right. right. right. split; [exact Q|]. now left.
    + apply F4 in S. right. right. left. split; [exact S|]. left. eauto.
    + apply F4 in S. right. right. left. split; [exact S|]. right. destruct m; [congruence|]. now left.
    + apply F5 in S. do 3 right. left. split; [exact S|]. left. split; [exact Q|]. now left.
    + apply F5 in S. do 3 right. left. split; [exact S|]. right. left. rewrite Q. now left.
    + apply F5 in S. do 3 right. left. split; [exact S|]. right. left. rewrite Q1. right.
      apply in_some_pair. eauto.
    + apply F5 in S. do 3 right. left. split; [exact S|]. do 2 right. left. eauto.
    + apply F5 in S. do 3 right. left. split; [exact S|]. do 3 right. left. eauto.
    + apply F5 in S. do 3 right. left. split; [exact S|]. do 4 right. left. eauto.
    + apply F5 in S. do 3 right. left. split; [exact S|]. do 5 right. left. rewrite Q. cbn [option_map]. eauto.
    + apply F5 in S. do 3 right. left. split; [exact S|]. do 6 right. left. rewrite Q. cbn [option_map]. eauto.
    + apply F5 in S. do 3 right. left. split; [exact S|]. do 7 right. rewrite Q. cbn [option_map]. eauto.
    + apply F8 in S. do 4 right. left. split; [exact S|]. eauto.
    + apply F7 in S. do 5 right. left. split; [exact S|]. eauto.
    + apply F6 in S. do 6 right. split; [exact S|]. apply in_map_iff. eauto.
Qed.

Lemma gen_options W a c s conf ds :
  (if f_defines (fl_of s) then define_options W a c else Some []) = Some ds ->
  exists m, (In s with_repos -> overlay_defines W (j_defines c) [] = Some m) /\
    options (head_options W (fl_of s) conf a c ++ log_options W a c ++ ds
             ++ (if f_remote (fl_of s) then remote_options W a else []) ++ endpoint_options (fl_of s) a)
            (gen_pairs W a c s conf m).
Proof.
  intros H. destruct (fl_spec s) as [_ [_ [_ [F4 _]]]].
  assert (D : exists m, (In s with_repos -> overlay_defines W (j_defines c) [] = Some m) /\
    options ds (if f_defines (fl_of s)
      then some_pair "-c" (a_config a) ++ match m with [] => [] | _ => [("-D", Some (w_show W m))] end else [])).
  { destruct (f_defines (fl_of s)) eqn:Q.
    - destruct (define_pairs _ _ _ _ H) as [m [O P]]. exists m. split; [auto|exact P].
    - injection H as <-. exists []. split; [|constructor]. intros I. apply F4 in I. discriminate. }
  destruct D as [m [O P]]. exists m. split; [exact O|]. unfold gen_pairs.
  apply options_app; [apply head_pairs|]. apply options_app; [apply log_pairs|].
  apply options_app; [exact P|]. apply options_app; [|apply endpoint_pairs].
  destruct (f_remote (fl_of s)); [apply remote_pairs|constructor].
Qed.

(** ** The options of the invocation log *)
Lemma named_spec d n x l : is_flag n = false -> named d n x = Some l ->
  options l (some_pair n (option_map (join d) x)) /\ (forall f, x = Some f -> valid_file_name f = true).
Proof.
  intros F. destruct x as [f|]; cbn [named option_map some_pair].
  - destruct (valid_file_name f) eqn:Q; [|discriminate]. intros [= <-].
    split; [apply os_value; [exact F|constructor]|]. now intros g [= <-].
  - intros [= <-]. split; [constructor|discriminate].
Qed.

Lemma all_of_cons x l r : all_of (x :: l) = Some r ->
  exists a b, x = Some a /\ all_of l = Some b /\ r = a ++ b.
Proof.
  cbn [all_of]. destruct x as [a|]; [|discriminate]. destruct (all_of l) as [b|]; [|discriminate].
  cbn [option_map]. intros [= <-]. eauto.
Qed.

Lemma invlog_spec a s dir inv :
  invlog_options (fl_of s) (a_invlog a) dir = Some inv ->
  exists ps, options inv ps /\
    (dir = None -> ps = []) /\
    (forall d, dir = Some d -> forall o v, In (o, v) ps <-> logged a s d o v).
Proof.
  intros H. destruct (fl_spec s) as [_ [_ [_ [_ [_ [F6 [_ [_ F9]]]]]]]].
  unfold invlog_options in H. destruct dir as [d|].
  2:{ injection H as <-. exists []. split; [constructor|]. split; [reflexivity|]. discriminate. }
  destruct (f_props (fl_of s)) eqn:Q.
  2:{ injection H as <-. exists []. split; [constructor|]. split; [reflexivity|].
      intros d' _ o v. split; [intros []|]. intros L. exfalso.
      assert (N : ~ In s with_actions) by (intros I; apply F6 in I; discriminate).
      destruct L as [f I _|f I _|f I _|f I _|f I _]; apply N; try exact I.
      unfold with_actions. cbn [In] in *. tauto. }
  apply all_of_cons in H. destruct H as [l1 [r1 [H1 [H ->]]]].
  apply all_of_cons in H. destruct H as [l2 [r2 [H2 [H ->]]]].
  apply all_of_cons in H. destruct H as [l3 [r3 [H3 [H ->]]]].
  apply all_of_cons in H. destruct H as [l4 [r4 [H4 [H ->]]]].
  apply all_of_cons in H. destruct H as [l5 [r5 [H5 [H ->]]]]. cbn [all_of] in H. injection H as <-.
  apply named_spec in H1; [|reflexivity]. apply named_spec in H2; [|reflexivity].
  apply named_spec in H3; [|reflexivity]. apply named_spec in H5; [|reflexivity].
  assert (H4' : options l4 (if f_build (fl_of s) then some_pair "--dump-artifacts" (option_map (join d) (il_artifacts (a_invlog a))) else [])).
  { destruct (f_build (fl_of s)); [apply named_spec in H4; [apply H4|reflexivity]|].
    injection H4 as <-. constructor. }
  eexists. split.
  { apply options_app; [apply H1|]. apply options_app; [apply H2|]. apply options_app; [apply H3|].
    apply options_app; [exact H4'|]. apply options_app; [apply H5|]. constructor. }
  split; [discriminate|]. intros d' [= <-] o v. repeat rewrite in_app_iff.
  rewrite (in_if (f_build _)). repeat rewrite in_some_pair. assert (Q' := proj1 F6 eq_refl).
  assert (M : forall x y, option_map (join d) x = Some y <-> exists f, x = Some f /\ y = join d f).
  { intros [f|] y; cbn [option_map]; split.
    - intros [= <-]. eauto.
    - intros [g [[= <-] ->]]. reflexivity.
    - discriminate.
    - intros [g [[=] _]]. }
  split.
  - intros L. repeat match goal with L : _ \/ _ |- _ => destruct L as [L|L] end.
    + destruct L as [-> [y [L ->]]]. apply M in L. destruct L as [f [L ->]]. now apply l_graph.
    + destruct L as [-> [y [L ->]]]. apply M in L. destruct L as [f [L ->]]. now apply l_plain.
    + destruct L as [-> [y [L ->]]]. apply M in L. destruct L as [f [L ->]]. now apply l_to_build.
    + destruct L as [T [-> [y [L ->]]]]. apply M in L. destruct L as [f [L ->]].
      apply l_artifacts; [now apply F9|exact L].
    + destruct L as [-> [y [L ->]]]. apply M in L. destruct L as [f [L ->]]. now apply l_profile.
    + destruct L.
  - intros L. destruct L as [f I L|f I L|f I L|f I L|f I L].
    + left. split; [reflexivity|]. eexists. split; [apply M; eauto|reflexivity].
    + right. left. split; [reflexivity|]. eexists. split; [apply M; eauto|reflexivity].
    + do 2 right. left. split; [reflexivity|]. eexists. split; [apply M; eauto|reflexivity].
    + do 3 right. left. split; [now apply F9|]. split; [reflexivity|]. eexists. split; [apply M; eauto|reflexivity].
    + do 4 right. left. split; [reflexivity|]. eexists. split; [apply M; eauto|reflexivity].
Qed.

Lemma log_dir_spec W a dir : log_dir W (a_invlog a) = (true, dir) -> invocation_dir W a dir.
Proof.
  unfold log_dir, invocation_dir. destruct (il_directory (a_invlog a)) as [d|]; [|now intros [= <-]].
  destruct (il_project_id (a_invlog a)) as [p|].
  - destruct (valid_file_name p); [|discriminate].
    destruct (w_mkdir W (join (join d p) (w_id W))); intros [= <-]; auto.
  - destruct (w_mkdir W (join (join d "unknown") (w_id W))); intros [= <-]; auto.
Qed.

Lemma rc_args_spec s a :
  rc_args (Some s) a = match Spec.alookup s (a_just_args a) with Some l => l | None => [] end.
Proof.
  cbn [rc_args]. induction (a_just_args a) as [|[k v] r IH]; cbn [find_args Spec.alookup]; [reflexivity|].
  destruct (String.eqb s k); auto.
Qed.

(** ** Values in order *)
Lemma values_app o a b : values o (a ++ b) = values o a ++ values o b.
Proof. unfold values. now rewrite filter_app, map_app. Qed.

Lemma values_other o n x : o <> n -> values o (some_pair n x) = [].
Proof.
  intros N. destruct x; [|reflexivity]. unfold values. cbn [some_pair filter fst].
  apply String.eqb_neq in N. now rewrite N.
Qed.

Lemma values_map o l : values o (map (fun p => (o, Some p)) l) = map Some l.
Proof.
  induction l as [|x l IH]; [reflexivity|]. unfold values in *. cbn [map filter fst].
  rewrite String.eqb_refl. cbn [map snd]. now rewrite IH.
Qed.

Lemma values_none o ps : (forall v, ~ In (o, v) ps) -> values o ps = [].
Proof.
  intros N. unfold values. induction ps as [|[n v] r IH]; [reflexivity|]. cbn [filter fst].
  destruct (String.eqb_spec o n) as [->|]; [exfalso; apply (N v); now left|].
  apply IH. intros v' I. apply (N v'). now right.
Qed.

Lemma gen_log_files W a c s conf m :
  values "-f" (gen_pairs W a c s conf m) = map Some (a_log_files a).
Proof.
  unfold gen_pairs. repeat rewrite values_app.
  rewrite (values_other "-f" "--restrict-stderr-log-limit") by discriminate.
  assert (L : values "-f" (match a_log_files a with [] => [] | l => ("--log-append", None) :: map (fun f => ("-f", Some f)) l end)
              = map Some (a_log_files a)).
  { destruct (a_log_files a) as [|x l]; [reflexivity|].
    change (values "-f" (("--log-append", None) :: map (fun f => ("-f", Some f)) (x :: l)))
      with (values "-f" (map (fun f => ("-f", Some f)) (x :: l))). apply values_map. }
  rewrite L.
  repeat match goal with
  | |- context [values "-f" (if ?b then ?l else [])] =>
      rewrite (values_none "-f" (if b then l else []))
        by (intros v I; apply in_if in I; destruct I as [_ I];
            repeat (apply in_app_or in I; destruct I as [I|I]);
            try (apply in_some_pair in I; destruct I as [I _]; discriminate);
            try (apply in_map_iff in I; destruct I as [? [[=] _]]);
            repeat match goal with
            | I : In _ (match ?x with _ => _ end) |- _ => destruct x
            | I : In _ [] |- _ => destruct I
            | I : In _ (_ :: _) |- _ => destruct I as [[=]|I]
            | I : In _ (some_pair _ _) |- _ => apply in_some_pair in I; destruct I as [I _]; discriminate
            end)
  end.
  assert (Z : values "-f" (match a_log_limit a with Some z => if Z.eq_dec z 3 then [] else [("--log-limit", Some (w_num W z))] | None => [] end) = []).
  { destruct (a_log_limit a) as [z|]; [|reflexivity]. destruct (Z.eq_dec z 3); reflexivity. }
  rewrite Z. cbn [app]. now rewrite !app_nil_r.
Qed.

Lemma gen_properties W a c s conf m :
  values "--remote-execution-property" (gen_pairs W a c s conf m)
  = if f_props (fl_of s) then map Some (a_props a) else [].
Proof.
  unfold gen_pairs. repeat rewrite app_assoc. rewrite values_app.
  assert (L : values "--remote-execution-property"
      (if f_props (fl_of s) then map (fun p => ("--remote-execution-property", Some p)) (a_props a) else [])
      = if f_props (fl_of s) then map Some (a_props a) else []).
  { destruct (f_props (fl_of s)); [apply values_map|reflexivity]. }
  rewrite L, values_none; [reflexivity|].
  intros v I. repeat (apply in_app_or in I; destruct I as [I|I]);
    repeat match goal with
    | I : In _ (if ?b then _ else []) |- _ => apply in_if in I; destruct I as [_ I]
    | I : In _ (_ ++ _) |- _ => apply in_app_or in I; destruct I as [I|I]
    | I : In _ (some_pair _ _) |- _ => apply in_some_pair in I; destruct I as [I _]; discriminate
    | I : In _ (match ?x with _ => _ end) |- _ => destruct x
    | I : In _ [] |- _ => destruct I
    | I : In _ (_ :: _) |- _ => destruct I as [[=]|I]
    | I : In _ (map _ _) |- _ => apply in_map_iff in I; destruct I as [? [[=] _]]
    end.
Qed.

Lemma existsb_in o l : existsb (String.eqb o) l = true -> In o l.
Proof.
  intros H. apply existsb_exists in H. destruct H as [x [I Q]]. apply String.eqb_eq in Q. now subst.
Qed.

Lemma passed_accepted W a c m s o v :
  In s known_names -> s <> "version" -> passed W a c m s o v -> In o (accepts s).
Proof.
  intros K N P.
  assert (C : forall names, In s names ->
     (forall n, In n names -> In o (accepts n)) -> In o (accepts s)) by (intros names I J; now apply J).
  assert (K' : In s ["describe"; "analyse"; "build"; "install"; "rebuild"; "add-to-cas"; "install-cas"; "gc"]).
  { unfold known_names in K. cbn [In] in *. intuition congruence. }
  destruct P; match goal with
  | I : In s with_repos |- _ => apply (C _ I)
  | I : In s with_root |- _ => apply (C _ I)
  | I : In s with_actions |- _ => apply (C _ I)
  | I : In s with_remote |- _ => apply (C _ I)
  | |- _ => apply (C _ K')
  end; intros n Hn; unfold with_root, with_remote, with_repos, with_actions in Hn; cbn [app In] in Hn;
    repeat (destruct Hn as [<-|Hn]; [apply existsb_in; reflexivity|]); destruct Hn.
Qed.

Lemma logged_accepted a s d o v : logged a s d o v -> In o (accepts s).
Proof.
  intros L. destruct L as [f I _|f I _|f I _|f I _|f I _];
    unfold with_actions in I; cbn [In] in I;
    repeat (destruct I as [<-|I]; [apply existsb_in; reflexivity|]); destruct I.
Qed.

Lemma overlay_defines_spec W l acc m :
  overlay_defines W l acc = Some m ->
  exists objs, Forall2 (fun s o => w_parse W s = Some (VMap o)) l objs /\
    forall k, find k m = Proofs.lastf k objs (find k acc).
Proof.
  revert acc. induction l as [|s r IH]; intros acc; cbn [overlay_defines].
  - intros [= <-]. exists []. split; [constructor|reflexivity].
  - destruct (w_parse W s) as [[| | | | |o]|] eqn:P; try discriminate. intros H.
    destruct (IH _ H) as [objs [A B]]. exists (o :: objs). split; [now constructor|].
    intros k. rewrite B, Proofs.find_update. reflexivity.
Qed.
