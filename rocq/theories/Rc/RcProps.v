(** * C125-C127: the rc files of just-mr *)

From Coq Require Import String Ascii List Arith Lia Bool ZArith NArith.
Import ListNotations.
From Verif.Rc Require Import Model Spec Proofs.
Open Scope string_scope.
Open Scope list_scope.
Open Scope nat_scope.

(** ** C125: overlaying rc files *)

(** The configuration is read if and only if the files taking part can be
    read; those are the first rc file and, in order, the existing files that
    it (and not an overlaying file) names in "rc files". *)
Theorem C125_accepted : forall E F ws norc rc,
  (exists c, effective_rc E F ws norc rc = Ok c) <-> (exists files, rc_files E F ws norc rc files).
Proof.
  intros. split.
  - intros [c H]. apply effective_spec in H. destruct H as [m [l [R _]]]. eauto.
  - intros [files R]. assert (R' := R). destruct R as [m [l [v [-> _]]]].
    eexists. apply effective_spec. exists m, l. split; [exact R'|reflexivity].
Qed.
Print Assumptions C125_accepted.

(** Every other key has the value of the last file that has the key. *)
Theorem C125_overridden : forall E F ws norc rc c,
  effective_rc E F ws norc rc = Ok c ->
  exists files, rc_files E F ws norc rc files /\
    forall k v, k <> "distdirs" -> k <> "just args" -> k <> "just files" -> k <> "invocation log" ->
      (entry k c v <-> last_entry k files v).
Proof.
  intros E F ws n rc c H. apply effective_spec in H. destruct H as [m [l [R ->]]].
  exists (m :: l). split; [exact R|]. intros k v N1 N2 N3 N4. apply plain_spec.
  unfold special. intuition.
Qed.
Print Assumptions C125_overridden.

(** "distdirs" accumulates, the entries of later files coming first. *)
Theorem C125_accumulated : forall E F ws norc rc c,
  effective_rc E F ws norc rc = Ok c ->
  exists files, rc_files E F ws norc rc files /\
    (2 <= length files ->
       entry "distdirs" c (VList (List.concat (map (list_at "distdirs") (rev files))))) /\
    (forall m, files = [m] -> c = m).
Proof.
  intros E F ws n rc c H. apply effective_spec in H. destruct H as [m [l [R ->]]].
  exists (m :: l). split; [exact R|]. split.
  - intros L. apply distdirs_spec. destruct l; [cbn in L; lia|discriminate].
  - intros m' [= -> ->]. reflexivity.
Qed.
Print Assumptions C125_accumulated.

(** "just args", "just files" and "invocation log" are merged key by key. *)
Theorem C125_merged : forall E F ws norc rc c,
  effective_rc E F ws norc rc = Ok c ->
  exists files, rc_files E F ws norc rc files /\
    (2 <= length files ->
     forall k, k = "just args" \/ k = "just files" \/ k = "invocation log" ->
     exists x, entry k c (VMap x) /\
       forall s v, entry s x v <-> last_entry s (map (object_at k) files) v).
Proof.
  intros E F ws n rc c H. apply effective_spec in H. destruct H as [m [l [R ->]]].
  exists (m :: l). split; [exact R|]. intros L k K. apply merged_spec; [exact K|].
  destruct l; [cbn in L; lia|discriminate].
Qed.
Print Assumptions C125_merged.

(** ** C126: the command line, then the rc file, then the default *)

(** A path, file, number, string or flag given on the command line is used;
    otherwise the value of the rc file, which has to be of the right type. *)
Theorem C126_single : forall E F ws c a F',
  read_just_mrrc E F ws c = Ok (a, F') ->
  exists rc, effective_rc E F ws (c_norc c) (c_rc c) = Ok rc /\
  forall v, (forall k, at_key k rc (v k)) ->
    chosen (a_root (c_given c)) (path_at E ws (v "local build root")) (a_root a) /\
    chosen (a_checkout (c_given c)) (file_at E F' ws (v "checkout locations")) (a_checkout a) /\
    chosen (a_just (c_given c)) (path_at E ws (v "just")) (a_just a) /\
    chosen (a_git (c_given c)) (path_at E ws (v "git")) (a_git a) /\
    chosen (a_attempts (c_given c)) (number_at (fun z => (z mod 2 ^ 32)%Z) (v "max attempts")) (a_attempts a) /\
    chosen (a_initial (c_given c)) (number_at (fun z => (z mod 2 ^ 32)%Z) (v "initial backoff seconds")) (a_initial a) /\
    chosen (a_max (c_given c)) (number_at (fun z => (z mod 2 ^ 32)%Z) (v "max backoff seconds")) (a_max a) /\
    chosen (a_log_limit (c_given c)) (number_at (fun z => Z.min (Z.max z 0) 6) (v "log limit")) (a_log_limit a) /\
    chosen (a_restrict (c_given c)) (number_at (fun z => Z.min (Z.max z 0) 6) (v "restrict stderr log limit")) (a_restrict a) /\
    (exists l, a_launcher a = Some l /\
       (a_launcher (c_given c) = Some l \/
        (a_launcher (c_given c) = None /\
         ((v "local launcher" = VNone /\ l = ["env"; "--"]) \/ v "local launcher" = VList (map VStr l))))).
Proof.
  intros E F ws c a F' H. unfold read_just_mrrc in H. dres H. rename x into rc.
  dres H. injection H as <- <-. exists rc. split; [reflexivity|]. intros v V.
  assert (G : forall k, v k = get k rc) by (intros k; symmetry; now apply at_key_get).
  rewrite !G. clear V G. unfold read_settings in E1.
  repeat (dres E1). injection E1 as <-. cbn.
  repeat match goal with
  | H : opt_location _ _ _ _ = Ok _ |- _ => apply opt_location_spec in H
  | H : opt_checkout _ _ _ _ _ = Ok _ |- _ => apply opt_checkout_spec in H
  | H : opt_unsigned _ _ = Ok _ |- _ => apply opt_unsigned_spec in H
  | H : opt_level _ _ = Ok _ |- _ => apply opt_level_spec in H
  | H : opt_launcher _ _ = Ok _ |- _ => apply opt_launcher_spec in H
  end.
  repeat (split; [assumption|]). assumption.
Qed.
Print Assumptions C126_single.

(** The options of the remote services and of authentication. *)
Theorem C126_remote : forall E F ws c a F',
  read_just_mrrc E F ws c = Ok (a, F') ->
  exists rc remote serve auth, effective_rc E F ws (c_norc c) (c_rc c) = Ok rc /\
    (exists v, at_key "remote execution" rc v /\ options_at v remote) /\
    (exists v, at_key "remote serve" rc v /\ options_at v serve) /\
    (exists v, at_key "authentication" rc v /\ options_at v auth) /\
    (exists v, at_key "address" remote v /\ chosen (a_remote (c_given c)) (string_at v) (a_remote a)) /\
    (exists v, at_key "instance name" remote v /\ chosen (a_instance (c_given c)) (string_at v) (a_instance a)) /\
    (exists v, at_key "compatible" remote v /\
       ((a_compatible (c_given c) = true /\ a_compatible a = true)
        \/ (a_compatible (c_given c) = false /\
            ((v = VNone /\ a_compatible a = false) \/ v = VBool (a_compatible a))))) /\
    (exists v, at_key "address" serve v /\ chosen (a_serve (c_given c)) (string_at v) (a_serve a)) /\
    (exists v, at_key "ca cert" auth v /\ chosen (a_ca (c_given c)) (path_at E ws v) (a_ca a)) /\
    (exists v, at_key "client cert" auth v /\ chosen (a_cert (c_given c)) (path_at E ws v) (a_cert a)) /\
    (exists v, at_key "client key" auth v /\ chosen (a_key (c_given c)) (path_at E ws v) (a_key a)).
Proof.
  intros E F ws c a F' H. unfold read_just_mrrc in H. dres H. rename x into rc.
  dres H. injection H as <- <-. unfold read_settings in E1.
  repeat (dres E1). injection E1 as <-. cbn.
  repeat match goal with
  | H : opt_location _ _ _ _ = Ok _ |- _ => apply opt_location_spec in H
  | H : opt_string _ _ = Ok _ |- _ => apply opt_string_spec in H
  | H : opt_flag _ _ = Ok _ |- _ => apply opt_flag_spec in H
  | H : sub_map _ = Ok _ |- _ => apply sub_map_spec in H
  end.
  match goal with
  | H1 : options_at (get "remote execution" rc) ?r, H2 : options_at (get "remote serve" rc) ?s,
    H3 : options_at (get "authentication" rc) ?t |- _ => exists rc, r, s, t
  end.
  split; [reflexivity|].
  repeat (split; [eexists; split; [apply get_at|eassumption]|]).
  eexists; split; [apply get_at|eassumption].
Qed.
Print Assumptions C126_remote.

(** Lists are extended: what the command line gives comes first. Locations
    that are no directories are left out of the distdirs. *)
Theorem C126_lists : forall E F ws c a F',
  read_just_mrrc E F ws c = Ok (a, F') ->
  exists rc, effective_rc E F ws (c_norc c) (c_rc c) = Ok rc /\
    (exists v l, at_key "distdirs" rc v /\ paths_at E ws (is_dir F') v l /\
       a_distdirs a = a_distdirs (c_given c) ++ l) /\
    (exists v l, at_key "log files" rc v /\ paths_at E ws (fun _ => true) v l /\
       a_log_files a = a_log_files (c_given c) ++ l) /\
    (exists v l, at_key "remote-execution properties" rc v /\ strings_at v l /\
       a_props a = a_props (c_given c) ++ l) /\
    (exists v m, at_key "just args" rc v /\ options_at v m /\
       forall s l, alookup s (a_just_args a) = Some l <->
         (entry s m (VList (map VStr l)) \/ (find s m = None /\ alookup s (a_just_args (c_given c)) = Some l))).
Proof.
  intros E F ws c a F' H. unfold read_just_mrrc in H. dres H. rename x into rc.
  dres H. injection H as <- <-. exists rc. split; [reflexivity|]. unfold read_settings in E1.
  repeat (dres E1). injection E1 as <-. cbn.
  repeat match goal with
  | H : read_distdirs _ _ _ _ _ = Ok _ |- _ => apply read_distdirs_spec in H; destruct H as [? [-> ?]]
  | H : read_log_files _ _ _ _ = Ok _ |- _ => apply read_log_files_spec in H; destruct H as [? [-> ?]]
  | H : read_props _ _ = Ok _ |- _ => apply read_props_spec in H; destruct H as [? [-> ?]]
  end.
  split; [eexists _, _; split; [apply get_at|split; [eassumption|reflexivity]]|].
  split; [eexists _, _; split; [apply get_at|split; [eassumption|reflexivity]]|].
  split; [eexists _, _; split; [apply get_at|split; [eassumption|reflexivity]]|].
  match goal with H : read_just_args _ _ = Ok ?t |- _ => rename H into HJ; revert HJ end.
  intros HJ. exists (get "just args" rc).
  destruct (get "just args" rc) as [| | | | |m] eqn:G; cbn [read_just_args] in HJ; try discriminate.
  - injection HJ as <-. exists []. split; [rewrite <- G; apply get_at|]. split; [left; auto|].
    intros s l. unfold entry. cbn [find]. split.
    + intros Q. right. auto.
    + intros [[=]|[_ Q]]. exact Q.
  - dres HJ. injection HJ as <-. exists m. split; [rewrite <- G; apply get_at|].
    split; [now right|]. intros s l. rewrite alookup_app.
    match goal with H : read_arg_lists m = Ok ?t |- _ =>
      pose proof (read_arg_lists_spec m t H s) as S;
      pose proof (read_arg_lists_total m t s H) as D; rename t into tt end.
    destruct D as [[l' Q]|[Q N]].
    + rewrite Q. split.
      * intros [= <-]. left. now apply S.
      * intros [Hx|[Hx _]].
        -- apply S in Hx. congruence.
        -- apply S in Q. unfold entry in Q. congruence.
    + rewrite Q. split; [intros Hx; right; auto|]. intros [Hx|[_ Hx]]; [|exact Hx].
      apply S in Hx. congruence.
Qed.
Print Assumptions C126_lists.

(** Files that are searched for: the first location, in the given order, that
    is an existing file. This determines the repository configuration (and
    where its relative paths are resolved), the absent file, and the files for
    just. An "absent" that is no list is ignored. *)
Theorem C126_search : forall E F ws c a F',
  read_just_mrrc E F ws c = Ok (a, F') ->
  exists rc, effective_rc E F ws (c_norc c) (c_rc c) = Ok rc /\
    (exists v l r, at_key "config lookup order" rc v /\
       (v = VList l \/ (v = VNone /\ l =
          [VMap [("root", VStr "workspace"); ("path", VStr "repos.json")];
           VMap [("root", VStr "workspace"); ("path", VStr "etc/repos.json")];
           VMap [("root", VStr "home"); ("path", VStr ".just-repos.json")];
           VMap [("root", VStr "system"); ("path", VStr "etc/just-repos.json")]])) /\
       first_existing E F' ws l r /\ a_repos a = option_map fst r /\ a_setup_root a = option_map snd r) /\
    (exists v, at_key "absent" rc v /\
       chosen (a_absent (c_given c))
         (fun o => (exists vs r, v = VList vs /\ first_existing E F' ws vs r /\ o = option_map fst r)
                   \/ ((forall vs, v <> VList vs) /\ o = None)) (a_absent a)) /\
    (exists v, at_key "just files" rc v /\
       ((v = VNone /\ a_config a = a_config (c_given c) /\ a_endpoint a = a_endpoint (c_given c))
        \/ exists m x y, v = VMap m /\ at_key "config" m x /\ search_at E F' ws x (a_config a) /\
             at_key "endpoint-configuration" m y /\ search_at E F' ws y (a_endpoint a))).
Proof.
  intros E F ws c a F' H. unfold read_just_mrrc in H. dres H. rename x into rc.
  dres H. injection H as <- <-. exists rc. split; [reflexivity|]. unfold read_settings in E1.
  repeat (dres E1). injection E1 as <-. cbn.
  repeat match goal with
  | H : opt_absent _ _ _ _ _ = Ok _ |- _ => apply opt_absent_spec in H
  | H : find_config _ _ _ _ = Ok _ |- _ => apply find_config_spec in H; destruct H as [? [? ?]]
  end.
  split.
  { eexists _, _, _. split; [apply get_at|]. split; [eassumption|]. split; [eassumption|]. auto. }
  split; [eexists; split; [apply get_at|eassumption]|].
  exists (get "just files" rc). split; [apply get_at|].
  match goal with H : read_just_files _ _ _ _ _ _ = Ok ?t |- _ => rename H into HJ end.
  destruct (get "just files" rc) as [| | | | |m] eqn:G; cbn [read_just_files] in HJ; try discriminate.
  - injection HJ as <-. left. auto.
  - dres HJ. dres HJ. injection HJ as <-. right. exists m, (get "config" m), (get "endpoint-configuration" m).
    split; [reflexivity|]. split; [apply get_at|]. split; [now apply search_spec|].
    split; [apply get_at|]. now apply search_spec.
Qed.
Print Assumptions C126_search.

(** Invocation logging happens only with a directory; then its options are
    those entries that are strings. *)
Theorem C126_invocation_log : forall E F ws c a F',
  read_just_mrrc E F ws c = Ok (a, F') ->
  exists rc m d r, effective_rc E F ws (c_norc c) (c_rc c) = Ok rc /\
    (exists v, at_key "invocation log" rc v /\ options_at v m) /\
    at_key "directory" m d /\ located E ws d r /\
    il_directory (a_invlog a) = option_map fst r /\
    (r = None -> a_invlog a = InvLog None None None None None None None None None []) /\
    (r <> None ->
       forall s, (il_project_id (a_invlog a) = Some s <-> entry "project id" m (VStr s)) /\
                 (il_metadata (a_invlog a) = Some s <-> entry "metadata" m (VStr s)) /\
                 (il_graph (a_invlog a) = Some s <-> entry "--dump-graph" m (VStr s)) /\
                 (il_graph_plain (a_invlog a) = Some s <-> entry "--dump-plain-graph" m (VStr s)) /\
                 (il_to_build (a_invlog a) = Some s <-> entry "--dump-artifacts-to-build" m (VStr s)) /\
                 (il_artifacts (a_invlog a) = Some s <-> entry "--dump-artifacts" m (VStr s)) /\
                 (il_profile (a_invlog a) = Some s <-> entry "--profile" m (VStr s)) /\
                 (il_message (a_invlog a) = Some s <-> entry "invocation message" m (VStr s)) /\
                 (In s (il_context (a_invlog a)) <-> In (VStr s) (list_at "context variables" m))).
Proof.
  intros E F ws c a F' H. unfold read_just_mrrc in H. dres H. rename x into rc.
  dres H. injection H as <- <-. unfold read_settings in E1.
  repeat (dres E1). injection E1 as <-. cbn [a_invlog].
  match goal with H : read_invlog _ _ _ = Ok ?t |- _ => rename H into HJ; rename t into il end.
  assert (S : forall k m s, str_or_none (get k m) = Some s <-> entry k m (VStr s)).
  { intros k m s. unfold get, entry. destruct (find k m) as [[| | |t| |]|]; cbn [str_or_none];
      split; intros Q; try discriminate; congruence. }
  assert (T : forall s l, In s (flat_map (fun x => match x with VStr t => [t] | _ => [] end) l) <-> In (VStr s) l).
  { intros s l. rewrite in_flat_map. split.
    - intros [x [I J]]. destruct x; cbn in J; try tauto. destruct J as [->|[]]. exact I.
    - intros I. exists (VStr s). split; [exact I|]. now left. }
  exists rc.
  destruct (get "invocation log" rc) as [| | | | |m] eqn:G; cbn [read_invlog] in HJ; try discriminate.
  - injection HJ as <-. exists [], VNone, None. split; [reflexivity|].
    split; [exists VNone; split; [rewrite <- G; apply get_at|left; auto]|].
    split; [right; auto|]. split; [constructor|]. split; [reflexivity|]. split; [reflexivity|]. congruence.
  - dres HJ. match goal with H : read_location _ _ _ = Ok ?x |- _ => rename H into HL; rename x into r end.
    apply read_location_spec in HL. exists m, (get "directory" m), r. split; [reflexivity|].
    split; [exists (VMap m); split; [rewrite <- G; apply get_at|now right]|].
    split; [apply get_at|]. split; [exact HL|].
    destruct r as [[d b]|]; injection HJ as <-.
    + split; [reflexivity|]. split; [discriminate|]. intros _ s. cbn [il_project_id il_metadata il_graph
        il_graph_plain il_to_build il_artifacts il_profile il_message il_context].
      do 8 (split; [apply S|]). rewrite as_list_at. apply T.
    + split; [reflexivity|]. split; [reflexivity|]. congruence.
Qed.
Print Assumptions C126_invocation_log.

(** ** C127: the dumped configuration is equivalent *)
Lemma read_settings_same E F ws g rc rc' :
  (forall k, k <> "rc files" -> find k rc' = find k rc) ->
  read_settings E F ws g rc' = read_settings E F ws g rc.
Proof.
  intros S. assert (G : forall k, k <> "rc files" -> get k rc' = get k rc).
  { intros k N. unfold get. now rewrite S. }
  unfold read_settings. rewrite !G by discriminate. reflexivity.
Qed.

(** Running with --dump-rc leaves a file with the effective configuration
    without "rc files". *)
Theorem C127_dumped : forall E F ws norc rc f given a F' c,
  can_write E f = true ->
  effective_rc E F ws norc rc = Ok c ->
  read_just_mrrc E F ws (Cmdline norc rc (Some f) given) = Ok (a, F') ->
  exists m, content F' f = Some (VMap m) /\ is_file F' f = true /\ find "rc files" m = None /\
    (forall k v, k <> "rc files" -> (entry k m v <-> entry k c v)) /\
    (forall p, p <> f -> content F' p = content F p /\ is_file F' p = is_file F p /\ is_dir F' p = is_dir F p).
Proof.
  intros E F ws n rc f g a F' c W Ef H. unfold read_just_mrrc in H. cbn [c_norc c_rc c_dump c_given] in H.
  rewrite Ef in H. cbn [bind] in H. dres H. injection H as _ <-.
  unfold dump. rewrite W. exists (erase "rc files" c). cbn [content is_file is_dir write_file].
  rewrite String.eqb_refl. split; [reflexivity|]. split; [reflexivity|].
  split; [apply find_erase_same|]. split.
  - intros k v N. unfold entry. now rewrite find_erase.
  - intros p N. apply String.eqb_neq in N. now rewrite N.
Qed.
Print Assumptions C127_dumped.

(** Using that file as rc file gives the same settings, for every command
    line. *)
Theorem C127_same_settings : forall E F ws norc rc f given a F',
  can_write E f = true ->
  read_just_mrrc E F ws (Cmdline norc rc (Some f) given) = Ok (a, F') ->
  read_just_mrrc E F' ws (Cmdline false (Some f) None given) = Ok (a, F').
Proof.
  intros E F ws n rc f g a F' W H. unfold read_just_mrrc in *. cbn [c_norc c_rc c_dump c_given] in *.
  dres H. rename x into c. dres H. injection H as <- <-.
  unfold dump in *. rewrite W in *.
  unfold effective_rc, obtain_rc_config. cbn [is_file content write_file]. rewrite String.eqb_refl.
  cbn [bind]. rewrite String.eqb_refl. cbn [bind].
  assert (Z : get "rc files" (erase "rc files" c) = VNone).
  { unfold get. now rewrite find_erase_same. }
  rewrite Z. cbn [bind].
  rewrite (read_settings_same E _ ws g c (erase "rc files" c)).
  - rewrite E1. reflexivity.
  - intros k N. now apply find_erase.
Qed.
Print Assumptions C127_same_settings.

(** ** C130: mistakes in rc files are reported *)

(** In the effective configuration: a key that has to hold a list, or an
    object, and holds something else. *)
Theorem C130_reported_partial : forall E F ws c rc k v,
  effective_rc E F ws (c_norc c) (c_rc c) = Ok rc -> entry k rc v -> v <> VNone ->
  (In k ["distdirs"; "log files"; "remote-execution properties"; "config lookup order"] /\
     (forall l, v <> VList l)
   \/ In k ["just files"; "just args"; "remote execution"; "remote serve"; "authentication"; "invocation log"] /\
     (forall m, v <> VMap m)) ->
  read_just_mrrc E F ws c = Exit.
Proof.
  intros E F ws c rc k v HR HE HN HT.
  destruct (read_just_mrrc E F ws c) as [[a F']|] eqn:Q; [exfalso|reflexivity].
  assert (U : forall w, at_key k rc w -> w = v).
  { intros w A. apply at_key_get in A. unfold get in A. unfold entry in HE. rewrite HE in A. congruence. }
  assert (O : forall w m, at_key k rc w -> options_at w m -> (forall m, v <> VMap m) -> False).
  { intros w m A B NM. rewrite (U w A) in B. destruct B as [[B _]|B]; [congruence|]. now apply (NM m). }
  destruct HT as [[I NL]|[I NM]]; cbn [In] in I.
  - destruct I as [<-|[<-|[<-|[<-|[]]]]].
    + destruct (C126_lists _ _ _ _ _ _ Q) as [rc' [R [[w [l [A [P _]]]] _]]].
      rewrite HR in R. injection R as <-. rewrite (U w A) in P.
      destruct P as [[P _]|[vs [P _]]]; [congruence|]. now apply (NL vs).
    + destruct (C126_lists _ _ _ _ _ _ Q) as [rc' [R [_ [[w [l [A [P _]]]] _]]]].
      rewrite HR in R. injection R as <-. rewrite (U w A) in P.
      destruct P as [[P _]|[vs [P _]]]; [congruence|]. now apply (NL vs).
    + destruct (C126_lists _ _ _ _ _ _ Q) as [rc' [R [_ [_ [[w [l [A [P _]]]] _]]]]].
      rewrite HR in R. injection R as <-. rewrite (U w A) in P.
      destruct P as [[P _]|P]; [congruence|]. now apply (NL (map VStr l)).
    + destruct (C126_search _ _ _ _ _ _ Q) as [rc' [R [[w [l [r [A [P _]]]]] _]]].
      rewrite HR in R. injection R as <-. rewrite (U w A) in P.
      destruct P as [P|[P _]]; [now apply (NL l)|congruence].
  - destruct I as [<-|[<-|[<-|[<-|[<-|[<-|[]]]]]]].
    + destruct (C126_search _ _ _ _ _ _ Q) as [rc' [R [_ [_ [w [A P]]]]]].
      rewrite HR in R. injection R as <-. rewrite (U w A) in P.
      destruct P as [[P _]|[m [x [y [P _]]]]]; [congruence|]. now apply (NM m).
    + destruct (C126_lists _ _ _ _ _ _ Q) as [rc' [R [_ [_ [_ [w [m [A [P _]]]]]]]]].
      rewrite HR in R. injection R as <-. exact (O _ _ A P NM).
    + destruct (C126_remote _ _ _ _ _ _ Q) as [rc' [m [s [t [R [[w [A P]] _]]]]]].
      rewrite HR in R. injection R as <-. exact (O _ _ A P NM).
    + destruct (C126_remote _ _ _ _ _ _ Q) as [rc' [m [s [t [R [_ [[w [A P]] _]]]]]]].
      rewrite HR in R. injection R as <-. exact (O _ _ A P NM).
    + destruct (C126_remote _ _ _ _ _ _ Q) as [rc' [m [s [t [R [_ [_ [[w [A P]] _]]]]]]]].
      rewrite HR in R. injection R as <-. exact (O _ _ A P NM).
    + destruct (C126_invocation_log _ _ _ _ _ _ Q) as [rc' [m [d [r [R [[w [A P]] _]]]]]].
      rewrite HR in R. injection R as <-. exact (O _ _ A P NM).
Qed.
Print Assumptions C130_reported_partial.

(** A file system with two rc files. *)
Definition E0 : env := Env "/home/u" (fun p => p) (fun _ => true).

Definition no_args : args :=
  Args None None [] None None None None [] [] None None None None None None [] None None false
    None None None None None no_invlog None None.

Definition F_of (l : list (string * value)) : fsys :=
  FS (fun p => has p l) (fun p => String.eqb p "/home/u/dist") (fun p => find p l).

(** A "distdirs" that is no list goes unnoticed as soon as another rc file is
    overlayed. *)
Definition rc_bad : value :=
  VMap [("distdirs", VStr "/home/u/dist"); ("rc files", VList [loc "workspace" "rc.json"])].

Theorem C130_overlay_refuted :
  ~ (forall E F ws c p m k v a F',
       c_rc c = Some p -> c_norc c = false -> content F p = Some (VMap m) -> entry k m v ->
       k = "distdirs" -> v <> VNone -> (forall l, v <> VList l) ->
       read_just_mrrc E F ws c <> Ok (a, F')).
Proof.
  intros C.
  pose (F := F_of [("/rc", rc_bad); ("/w/rc.json", VMap [])]).
  pose (c := Cmdline false (Some "/rc") None no_args).
  destruct (read_just_mrrc E0 F (Some "/w") c) as [[a F']|] eqn:Q.
  - refine (C E0 F (Some "/w") c "/rc" _ "distdirs" (VStr "/home/u/dist") a F' eq_refl eq_refl eq_refl _ eq_refl _ _ Q).
    + reflexivity.
    + discriminate.
    + discriminate.
  - vm_compute in Q. discriminate.
Qed.
Print Assumptions C130_overlay_refuted.

(** A misspelled root of a location is taken relative to the current working
    directory. *)
Theorem C130_root_refuted :
  ~ (forall E ws m root r, entry "root" m (VStr root) ->
       root <> "workspace" -> root <> "home" -> root <> "system" ->
       read_location E ws (VMap m) <> Ok (Some r)).
Proof.
  intros C. apply (C E0 None [("root", VStr "Home"); ("path", VStr "x")] "Home" ("x", ".")).
  - reflexivity.
  - discriminate.
  - discriminate.
  - discriminate.
  - vm_compute. reflexivity.
Qed.
Print Assumptions C130_root_refuted.

(** An "absent" that is a single location instead of a list is ignored. *)
Theorem C130_absent_refuted :
  ~ (forall E F ws c rc v a F', effective_rc E F ws (c_norc c) (c_rc c) = Ok rc ->
       entry "absent" rc v -> v <> VNone -> (forall l, v <> VList l) ->
       a_absent (c_given c) = None ->
       read_just_mrrc E F ws c <> Ok (a, F')).
Proof.
  intros C.
  pose (F := F_of [("/rc", VMap [("absent", loc "home" "absent.json")])]).
  pose (c := Cmdline false (Some "/rc") None no_args).
  destruct (read_just_mrrc E0 F None c) as [[a F']|] eqn:Q.
  - refine (C E0 F None c _ _ a F' eq_refl eq_refl _ _ eq_refl Q).
    + discriminate.
    + discriminate.
  - vm_compute in Q. discriminate.
Qed.
Print Assumptions C130_absent_refuted.

(** A negative number of attempts becomes a huge one. *)
Theorem C130_attempts_refuted :
  ~ (forall E F ws c rc z a F', effective_rc E F ws (c_norc c) (c_rc c) = Ok rc ->
       entry "max attempts" rc (VNum z) -> a_attempts (c_given c) = None ->
       read_just_mrrc E F ws c = Ok (a, F') -> a_attempts a = Some z).
Proof.
  intros C.
  pose (F := F_of [("/rc", VMap [("max attempts", VNum (-1))])]).
  pose (c := Cmdline false (Some "/rc") None no_args).
  destruct (read_just_mrrc E0 F None c) as [[a F']|] eqn:Q.
  - assert (H := C E0 F None c _ (-1)%Z a F' eq_refl eq_refl eq_refl Q).
    assert (H' : a_attempts a = Some 4294967295%Z).
    { vm_compute in Q. injection Q as <- _. reflexivity. }
    rewrite H in H'. discriminate.
  - vm_compute in Q. discriminate.
Qed.
Print Assumptions C130_attempts_refuted.

(** An rc file of the user and one of the workspace. *)
Definition rc_user : list (string * value) :=
  [("rc files", VList [loc "workspace" "rc.json"; loc "workspace" "etc/rc.json"]);
   ("distdirs", VList [loc "home" "dist"]);
   ("log limit", VNum 5);
   ("just args", VMap [("build", VList [VStr "-J"; VStr "64"]); ("install", VList [VStr "--remember"])]);
   ("remote execution", VMap [("address", VStr "h:1")])].

Definition rc_ws : list (string * value) :=
  [("rc files", VList [loc "home" "other.json"]);
   ("distdirs", VList [loc "workspace" "missing"]);
   ("just args", VMap [("build", VList [VStr "-J"; VStr "8"])]);
   ("remote execution", VMap [("address", VStr "h:2")])].

Definition F_two : fsys :=
  F_of [("/home/u/.just-mrrc", VMap rc_user); ("/w/etc/rc.json", VMap rc_ws); ("/w/repos.json", VNone)].

Example C125_nonvacuous :
  exists c, effective_rc E0 F_two (Some "/w") false None = Ok c /\
    entry "distdirs" c (VList [loc "workspace" "missing"; loc "home" "dist"]) /\
    entry "log limit" c (VNum 5) /\
    entry "remote execution" c (VMap [("address", VStr "h:2")]).
Proof. eexists. split; [vm_compute; reflexivity|]. repeat split. Qed.

Example C126_nonvacuous :
  exists a F', read_just_mrrc E0 F_two (Some "/w")
      (Cmdline false None (Some "/tmp/rc") no_args) = Ok (a, F') /\
    a_distdirs a = ["/home/u/dist"] /\ a_log_limit a = Some 5%Z /\ a_remote a = Some "h:2" /\
    alookup "build" (a_just_args a) = Some ["-J"; "8"] /\
    alookup "install" (a_just_args a) = Some ["--remember"] /\
    a_repos a = Some "/w/repos.json" /\ a_setup_root a = Some "/w/.".
Proof. eexists _, _. split; [vm_compute; reflexivity|]. repeat split. Qed.
