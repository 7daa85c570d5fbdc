(** * C128, C129: the command just-mr runs *)

From Coq Require Import String Ascii List Arith Lia Bool ZArith NArith.
Import ListNotations.
From Verif.Rc Require Import Model Spec Proofs Launch LaunchSpec LaunchProofs.
Open Scope string_scope.
Open Scope list_scope.
Open Scope nat_scope.

(** ** C128: the shape of the command *)

(** "just-mr do S ARGS" runs what "just-mr S ARGS" runs. *)
Theorem C128_do : forall W a sub rest defs plain fwd,
  call_just W a (Call None (sub :: rest) defs plain fwd)
  = call_just W a (Call (Some sub) rest defs plain fwd).
Proof. intros. reflexivity. Qed.
Print Assumptions C128_do.

(** The command is: just, the subcommand, the options due to the settings,
    then the arguments the rc file has for this subcommand, then the options of
    the invocation log, and at the end the arguments of the user, unchanged.
    As just takes the last value of an option, the user has the last word. *)
Theorem C128_order : forall W a s rest defs plain fwd cmd,
  call_just W a (Call (Some s) rest defs plain fwd) = Exec cmd ->
  exists just gen ps conf_args inv ips,
    cmd = just :: s :: gen ++ conf_args ++ inv ++ rest /\
    (a_just a = Some just \/ (a_just a = None /\ just = "just")) /\
    options gen ps /\ options inv ips /\
    (alookup s (a_just_args a) = Some conf_args \/ (alookup s (a_just_args a) = None /\ conf_args = [])) /\
    (In s with_repos -> w_locks W = true /\ exists conf, w_setup W = Some conf).
Proof.
  intros W a s rest defs plain fwd cmd H. apply call_just_exec in H.
  destruct H as [conf [ds [inv [dir [HC [HD [HL [HI ->]]]]]]]].
  destruct (fl_spec s) as [F1 _].
  destruct (gen_options _ _ _ s conf _ HD) as [m [_ G]].
  destruct (invlog_spec a s dir inv HI) as [ips [O _]].
  exists (match a_just a with Some j => j | None => "just" end). eexists. exists (gen_pairs W a (Call (Some s) rest defs plain fwd) s conf m).
  exists (rc_args (Some s) a), inv, ips.
  split; [reflexivity|]. split; [destruct (a_just a); auto|]. split; [exact G|]. split; [exact O|].
  split.
  - rewrite rc_args_spec. destruct (alookup s (a_just_args a)); auto.
  - intros I. apply F1 in I. destruct (HC I) as [L S]. eauto.
Qed.
Print Assumptions C128_order.

(** ** C129: settings are forwarded where they are supported *)

(** Exactly the settings that concern the subcommand are passed on, with
    their values; log files and properties in order. *)
Theorem C129_forwarded : forall W a s rest defs plain fwd cmd,
  call_just W a (Call (Some s) rest defs plain fwd) = Exec cmd ->
  exists just gen ps m conf_args inv,
    cmd = just :: s :: gen ++ conf_args ++ inv ++ rest /\
    conf_args = match alookup s (a_just_args a) with Some l => l | None => [] end /\
    options gen ps /\
    (forall o v, In (o, v) ps <-> passed W a (Call (Some s) rest defs plain fwd) m s o v) /\
    values "-f" ps = map Some (a_log_files a) /\
    (In s ["analyse"; "build"; "install"; "rebuild"] ->
       values "--remote-execution-property" ps = map Some (a_props a)) /\
    (In s ["describe"; "analyse"; "build"; "install"; "rebuild"] ->
       exists objs, Forall2 (fun d o => w_parse W d = Some (VMap o)) defs objs /\
         forall k v, entry k m v <-> last_entry k objs v).
Proof.
  intros W a s rest defs plain fwd cmd H. apply call_just_exec in H.
  destruct H as [conf [ds [inv [dir [HC [HD [HL [HI ->]]]]]]]].
  destruct (fl_spec s) as [F1 [_ [_ [_ [_ [F6 _]]]]]].
  destruct (gen_options _ _ _ s conf _ HD) as [m [HM G]].
  eexists _, _, (gen_pairs W a (Call (Some s) rest defs plain fwd) s conf m), m, (rc_args (Some s) a), inv.
  split; [reflexivity|]. split; [apply rc_args_spec|]. split; [exact G|].
  split; [|split; [apply gen_log_files|split]].
  - intros o v. apply gen_passed. intros Q. now destruct (HC Q).
  - intros I. rewrite gen_properties. now rewrite (proj2 F6 I).
  - intros I. specialize (HM I). cbn [j_defines] in HM.
    destruct (overlay_defines_spec _ _ _ _ HM) as [objs [A B]]. exists objs. split; [exact A|].
    intros k v. unfold entry. rewrite B. cbn [find]. rewrite lastf_spec. intuition discriminate.
Qed.
Print Assumptions C129_forwarded.

(** The files of the invocation log: below the directory for this invocation,
    and only if that directory could be created. *)
Theorem C129_invocation_log : forall W a s rest defs plain fwd cmd,
  call_just W a (Call (Some s) rest defs plain fwd) = Exec cmd ->
  exists front inv ips dir,
    cmd = front ++ inv ++ rest /\ options inv ips /\ invocation_dir W a dir /\
    (dir = None -> inv = []) /\
    (forall d, dir = Some d -> forall o v, In (o, v) ips <-> logged a s d o v).
Proof.
  intros W a s rest defs plain fwd cmd H. apply call_just_exec in H.
  destruct H as [conf [ds [inv [dir [HC [HD [HL [HI ->]]]]]]]].
  destruct (invlog_spec a s dir inv HI) as [ips [O [N L]]].
  match goal with |- exists front inv0 ips0 dir0, ?j :: s :: ?g ++ ?r ++ inv ++ rest = _ /\ _ =>
    generalize g; intros gg; generalize j; intros jj end.
  exists (jj :: s :: gg ++ rc_args (Some s) a), inv, ips, dir.
  split; [cbn [app]; now rewrite <- (app_assoc gg)|]. split; [exact O|].
  split; [now apply log_dir_spec|]. split; [|exact L].
  intros Q. specialize (N Q). subst ips. now inversion O.
Qed.
Print Assumptions C129_invocation_log.

(** Every option passed to a known subcommand other than "version" is one
    that this subcommand of just has. *)
Theorem C129_accepted_partial : forall W a s rest defs plain fwd cmd,
  In s ["describe"; "analyse"; "build"; "install"; "rebuild"; "add-to-cas"; "install-cas"; "gc"] ->
  call_just W a (Call (Some s) rest defs plain fwd) = Exec cmd ->
  exists just gen ps conf_args inv ips,
    cmd = just :: s :: gen ++ conf_args ++ inv ++ rest /\
    conf_args = match alookup s (a_just_args a) with Some l => l | None => [] end /\
    options gen ps /\ options inv ips /\
    forall o v, In (o, v) (ps ++ ips) -> In o (accepts s).
Proof.
  intros W a s rest defs plain fwd cmd K H. apply call_just_exec in H.
  destruct H as [conf [ds [inv [dir [HC [HD [HL [HI ->]]]]]]]].
  destruct (gen_options _ _ _ s conf _ HD) as [m [HM G]].
  destruct (invlog_spec a s dir inv HI) as [ips [O [N L]]].
  eexists _, _, (gen_pairs W a (Call (Some s) rest defs plain fwd) s conf m), (rc_args (Some s) a), inv, ips.
  split; [reflexivity|]. split; [apply rc_args_spec|]. split; [exact G|]. split; [exact O|].
  intros o v I. apply in_app_or in I. destruct I as [I|I].
  - apply gen_passed in I; [|intros Q; now destruct (HC Q)].
    eapply passed_accepted; [| |exact I].
    + unfold known_names. cbn [In] in *. tauto.
    + intros ->. cbn [In] in K. intuition discriminate.
  - destruct dir as [d|]; [|rewrite (N eq_refl) in I; destruct I].
    apply (L d eq_refl) in I. eapply logged_accepted; eauto.
Qed.
Print Assumptions C129_accepted_partial.

(** For "version" this holds as long as nothing is set about logging. *)
Theorem C129_version_partial : forall W a rest defs plain fwd cmd,
  default_logging a (Call (Some "version") rest defs plain fwd) ->
  call_just W a (Call (Some "version") rest defs plain fwd) = Exec cmd ->
  exists just, cmd = just :: "version" ::
    match alookup "version" (a_just_args a) with Some l => l | None => [] end ++ rest.
Proof.
  intros W a rest defs plain fwd cmd [L1 [L2 [L3 L4]]] H. apply call_just_exec in H.
  destruct H as [conf [ds [inv [dir [HC [HD [HL [HI ->]]]]]]]].
  cbn [j_plain_log] in L4. eexists. cbn in HD. injection HD as <-.
  cbn [known_subcommands find_flags String.eqb] in *.
  assert (I : inv = []).
  { unfold invlog_options in HI. destruct dir; cbn in HI; congruence. }
  subst inv. rewrite rc_args_spec. cbn [app]. do 2 f_equal.
  unfold log_options. rewrite L1, L3. cbn [j_plain_log]. rewrite L4.
  destruct L2 as [-> | ->]; cbn; reflexivity.
Qed.
Print Assumptions C129_version_partial.

(** With a log file in the rc file, "just-mr version" passes options to "just
    version" that this subcommand does not have. *)
Definition W0 : world :=
  World true (Some "/c.json") (fun _ => "[]") (fun _ => "{}") (fun _ => "5") (fun _ => None) "id" (fun _ => true).

Definition a0 : args :=
  Args None None [] None None None None [] [] None None None (Some ["env"; "--"]) None None
    ["/home/u/log"] None None false None None None None None no_invlog None None.

Theorem C129_version_refuted :
  ~ (forall W a s rest defs plain fwd cmd,
      In s known_names ->
      call_just W a (Call (Some s) rest defs plain fwd) = Exec cmd ->
      a_just_args a = [] -> rest = [] ->
      exists ps, options (skipn 2 cmd) ps /\ forall o v, In (o, v) ps -> In o (accepts s)).
Proof.
  intros C.
  destruct (C W0 a0 "version" [] [] false true
    ["just"; "version"; "--log-append"; "-f"; "/home/u/log"]) as [ps [O A]].
  - now left.
  - vm_compute. reflexivity.
  - reflexivity.
  - reflexivity.
  - cbn [skipn] in O. inversion O; subst; [|discriminate].
    destruct (A "--log-append" None (or_introl eq_refl)).
Qed.
Print Assumptions C129_version_refuted.

(** A run with several settings. *)
Definition a1 : args :=
  Args (Some "/root") None [] (Some "/usr/bin/just") None (Some "/w/c.json") (Some "/w/e.json")
    [("build", ["-J"; "64"])] ["image:x"] (Some 5%Z) None None (Some ["env"; "X=1"]) (Some 5%Z) None
    ["/l1"; "/l2"] (Some "h:1") (Some "i") true (Some "h:2") (Some "/ca") None None None
    (InvLog (Some "/inv") (Some "p") (Some "m.json") (Some "g.json") None None (Some "a.json") None None [])
    None None.

Example C128_nonvacuous :
  call_just W0 a1 (Call (Some "build") ["//x"; "-J"; "1"] [] false true) =
  Exec ["/usr/bin/just"; "build"; "-C"; "/c.json"; "--local-build-root"; "/root";
        "--local-launcher"; "[]"; "--log-append"; "-f"; "/l1"; "-f"; "/l2"; "--log-limit"; "5";
        "-c"; "/w/c.json"; "--compatible"; "-r"; "h:1"; "--remote-instance-name"; "i";
        "--tls-ca-cert"; "/ca"; "--max-attempts"; "5"; "--endpoint-configuration"; "/w/e.json";
        "-R"; "h:2"; "--remote-execution-property"; "image:x"; "-J"; "64";
        "--dump-graph"; "/inv/p/id/g.json"; "--dump-artifacts"; "/inv/p/id/a.json";
        "//x"; "-J"; "1"].
Proof. vm_compute. reflexivity. Qed.
