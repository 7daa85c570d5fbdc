(** Settings taken from the git configuration and the environment (C122-C124). *)
From Coq Require Import String Ascii List Bool Arith Lia.
From Verif Require Import GitConfig.Model GitConfig.Spec GitConfig.Proofs GitConfig.Noproxy.
Import ListNotations.
Local Open Scope string_scope.
Local Open Scope list_scope.
Local Open Scope nat_scope.

(** ** Examples: a parser for a few URLs *)
Definition at_host (user host path : string) : parts :=
  mkParts (Some "https") (if String.eqb user "" then None else Some user) (Some host) (Some "443") None path None None.
Definition urls : list (string * parts) :=
  [("https://git.example.org/team/repo", at_host "" "git.example.org" "/team/repo");
   ("https://me@git.example.org/team/repo", at_host "me" "git.example.org" "/team/repo");
   ("https://git.example.org", at_host "" "git.example.org" "/");
   ("https://git.example.org/team", at_host "" "git.example.org" "/team");
   ("https://git.example.org/tea", at_host "" "git.example.org" "/tea");
   ("https://..example.org", at_host "" "..example.org" "/");
   ("https://me@git.example.org", at_host "me" "git.example.org" "/")].
Definition toy_parse (s : string) : option parts :=
  match find (fun e => String.eqb (fst e) s) urls with Some (_, p) => Some p | None => None end.
Definition the_url := "https://git.example.org/team/repo".
Definition the_parts := at_host "" "git.example.org" "/team/repo".
Definition yes_no (s : string) : option bool := if String.eqb s "false" then Some false else if String.eqb s "true" then Some true else None.

Lemma no_star s : has_star s = false -> ~ In "*"%char (list_ascii_of_string s).
Proof. intros E I. apply has_star_spec in I. congruence. Qed.
Lemma plain_fine u k : has_star k = false -> (forall p, toy_parse k = Some p -> p_user p = None \/ p_user u <> None) -> key_fine toy_parse u k.
Proof.
  intros S U. destruct (toy_parse k) as [p|] eqn:E.
  - right. exists p, (p_host p). split; [constructor; [now apply no_star|exact E]|]. destruct (U p eq_refl); auto.
  - left. left. split; [now apply no_star|exact E].
Qed.
Lemma star_reads : reads toy_parse "https://*.example.org" (at_host "" "..example.org" "/") (Some "*.example.org").
Proof.
  apply (reads_stars toy_parse _ (at_host "" "..example.org" "/") "..example.org" "https://" "*.example.org" ""); try reflexivity.
  - apply has_star_spec. reflexivity.
  - discriminate.
  - apply (match_here_spec _ "*.example.org" _ ""). reflexivity.
  - intros a' h' b' E F. assert (M : match_here "..example.org" (h' ++ b') = Some (h', b')) by (apply match_here_spec; auto). clear F.
    do 8 (destruct a' as [|? a']; [cbn [append] in E; rewrite <- E in M; vm_compute in M; discriminate M|injection E as _ E]).
    cbn. lia.
Qed.

(** ** C122: verification of certificates *)

(** The value of the most specific entry that applies is used, the last of these; if there is none, the
    generic one; and certificates are verified by default. Partial: keys with users are only considered
    together with URLs with users. *)
Theorem C122_ssl_partial : forall (parse : string -> option parts) (parse_bool : string -> option bool) (url : string) (u : parts) (c : config),
  parse url = Some u -> p_port u <> None -> (forall e, In e (c_specific c) -> key_fine parse u (fst e)) ->
  (none_applies parse u (c_specific c) \/ exists v, to_use parse u (c_specific c) v) /\
  (forall v b, to_use parse u (c_specific c) v -> parse_bool v = Some b ->
     GetSSLCallback parse parse_bool false (Some c) url = if b then Check else Passthrough) /\
  (none_applies parse u (c_specific c) \/ (exists v, to_use parse u (c_specific c) v /\ parse_bool v = None) ->
     forall r, GetSSLCallback parse parse_bool false (Some c) url = r ->
       (r = Passthrough <-> exists v, c_generic c = Some v /\ parse_bool v = Some false) /\ (r = Passthrough \/ r = Check)).
Proof.
  intros parse parse_bool url u c EP PU KF. destruct (collected parse u _ PU KF) as (l & EC & T1 & T2).
  assert (U : forall d w r v, l = (d, w) :: r -> to_use parse u (c_specific c) v -> v = w).
  { intros d w r v -> X. apply to_use_best in X. destruct X as [d' X]. exact (best_unique _ _ _ _ _ _ _ X T1). }
  assert (NU : l = [] -> forall v, ~ to_use parse u (c_specific c) v).
  { intros -> v (b & k & d & a & E & A & _). apply (T1 (k, v) d); [rewrite E; apply in_or_app; right; now left|exact A]. }
  split; [|split].
  - destruct l as [|[d w] r]; [now left|right]. exists w. apply to_use_best. now exists d.
  - intros v b X EB. unfold GetSSLCallback. rewrite EP, EC. destruct l as [|[d w] r]; [now destruct (NU eq_refl v)|].
    rewrite <- (U _ _ _ _ eq_refl X), EB. destruct b; reflexivity.
  - intros X r <-. unfold GetSSLCallback. rewrite EP, EC.
    assert (G : forall q : ssl, q = match (match c_generic c with Some v => parse_bool v | None => None end) with Some false => Passthrough | _ => Check end ->
       (q = Passthrough <-> exists v, c_generic c = Some v /\ parse_bool v = Some false) /\ (q = Passthrough \/ q = Check)).
    { intros q ->. destruct (c_generic c) as [v|].
      - destruct (parse_bool v) as [[|]|] eqn:E; (split; [split|auto]); try discriminate; try (intros (w & E1 & E2); congruence). intros _. eauto.
      - split; [split|auto]; [discriminate|]. intros (w & E1 & _). discriminate. }
    destruct l as [|[d w] r]; [now apply G|]. destruct X as [X|(v & X & EN)].
    + exfalso. destruct T1 as (b & k & a & E & A & _). apply (X (k, w) d); [rewrite E; apply in_or_app; right; now left|exact A].
    + rewrite <- (U _ _ _ _ eq_refl X), EN. now apply G.
Qed.
Print Assumptions C122_ssl_partial.

(** A key with a user makes every access to a URL without one fail, if only the schemes are the same. *)
Theorem C122_user_refuted : forall (parse : string -> option parts) (parse_bool : string -> option bool) (url : string) (u : parts) (c : config)
    (e : string * string) (k : parts) (kh : option string),
  parse url = Some u -> In e (c_specific c) -> reads parse (fst e) k kh ->
  p_scheme k = p_scheme u -> p_user k <> None -> p_user u = None ->
  (forall d, ~ entry_applies parse u (fst e) d) /\
  GetSSLCallback parse parse_bool false (Some c) url = SslError.
Proof.
  intros parse parse_bool url u c e k kh EP I R S UK UU. split.
  - intros d (k' & kh' & R' & (_ & _ & _ & _ & A) & _). apply reads_parse in R. apply reads_parse in R'. rewrite R in R'. injection R' as _ E _ _ _. destruct A; congruence.
  - unfold GetSSLCallback. rewrite EP. now rewrite (collect_error parse u _ _ _ _ I R S UK UU).
Qed.
Print Assumptions C122_user_refuted.

Definition cfg1 : config := mkCfg
  [("https://git.example.org", "true"); ("https://git.example.org/team", "true"); ("https://git.example.org/team", "false");
   ("https://git.example.org/tea", "true"); ("not a url", "true")] (Some "true").
Lemma cfg1_fine : forall e, In e (c_specific cfg1) -> key_fine toy_parse the_parts (fst e).
Proof.
  intros e I. cbn in I. repeat (destruct I as [<-|I]; [apply plain_fine; [reflexivity|intros p E; vm_compute in E; first [discriminate|injection E as <-; now left]]|]).
  destruct I.
Qed.
Example C122_nonvacuous :
  toy_parse the_url = Some the_parts /\ (forall e, In e (c_specific cfg1) -> key_fine toy_parse the_parts (fst e)) /\
  to_use toy_parse the_parts (c_specific cfg1) "false" /\
  GetSSLCallback toy_parse yes_no false (Some cfg1) the_url = Passthrough /\
  GetSSLCallback toy_parse yes_no false (Some (mkCfg [("https://me@git.example.org", "true")] None)) the_url = SslError /\
  GetSSLCallback toy_parse yes_no false (Some (mkCfg [("https://git.example.org/tea", "false")] None)) the_url = Check.
Proof.
  split; [reflexivity|]. split; [exact cfg1_fine|]. split; [|repeat split; vm_compute; reflexivity].
  destruct (collected toy_parse the_parts (c_specific cfg1)) as (l & EC & T1 & _); [discriminate|exact cfg1_fine|].
  assert (EL : exists d r, l = (d, "false") :: r) by (vm_compute in EC; injection EC as <-; eexists _, _; reflexivity).
  destruct EL as (d & r & ->). apply to_use_best. now exists d.
Qed.
(** A key with an asterisk is read, and is less specific than one without. *)
Definition cfg2 : config := mkCfg [("https://git.example.org", "true"); ("https://*.example.org", "false")] None.
Example C122_asterisk :
  (forall e, In e (c_specific cfg2) -> key_fine toy_parse the_parts (fst e)) /\
  GetSSLCallback toy_parse yes_no false (Some cfg2) the_url = Check /\
  GetSSLCallback toy_parse yes_no false (Some (mkCfg [("https://*.example.org", "false")] None)) the_url = Passthrough.
Proof.
  split; [|split; vm_compute; reflexivity]. intros e [<-|[<-|[]]].
  - apply plain_fine; [reflexivity|]. intros p E. vm_compute in E. injection E as <-. now left.
  - right. exists (at_host "" "..example.org" "/"), (Some "*.example.org"). split; [exact star_reads|now left].
Qed.

(** ** C123: no_proxy *)

(** A host is exempt if and only if a pattern says so. Partial: for host names and IPv4 addresses. *)
Theorem C123_no_proxy_partial : forall (u : parts) (no_proxy host : string),
  p_host u = Some host -> ~ In ":"%char (list_ascii_of_string host) -> (forall r, host <> String "." r) ->
  exists b, NoproxyStringMatches u no_proxy = Some b /\ (b = true <-> exempt no_proxy host (p_given u)).
Proof. exact (fun u s h A B C => noproxy_spec u s h A B C). Qed.
Print Assumptions C123_no_proxy_partial.

(** Patterns that are IPv6 addresses exempt the address without port only: a port given in the URL is taken
    as part of the address. *)
Theorem C123_ipv6_refuted : forall (u : parts),
  p_host u = Some "[::1]" ->
  (p_given u = None -> NoproxyStringMatches u "[::1]" = Some true) /\
  (forall port, p_given u = Some port -> NoproxyStringMatches u "[::1]" = Some false).
Proof.
  intros u E. unfold NoproxyStringMatches. rewrite E. split.
  - intros ->. vm_compute. reflexivity.
  - intros port ->. apply f_equal.
    assert (X : filter (fun t => negb (String.eqb t "")) (flat_map (getlines ",") (getlines " " "[::1]")) = ["[::1]"]) by reflexivity.
    rewrite X. cbn [existsb]. rewrite orb_false_r.
    assert (PP : ParseNoproxyPattern ("[::1]" ++ ":" ++ port) = mkNo (labels "." "[") (Some (":1]:" ++ port)%string)).
    { apply pattern_parse. exists "[". split; [right; split; [reflexivity|discriminate]|]. split; [cbn; intros [X'|[]]; discriminate|reflexivity]. }
    rewrite PP.
    unfold NoproxyPatternMatches. cbn. reflexivity.
Qed.
Print Assumptions C123_ipv6_refuted.

Example C123_nonvacuous :
  exempt "localhost, .example.org" "git.example.org" None /\
  NoproxyStringMatches the_parts "localhost, .example.org" = Some true /\
  NoproxyStringMatches the_parts "localhost,ample.org git.example.org:8080" = Some false.
Proof.
  assert (M : NoproxyStringMatches the_parts "localhost, .example.org" = Some true) by (vm_compute; reflexivity).
  split; [|split; [exact M|vm_compute; reflexivity]].
  destruct (C123_no_proxy_partial the_parts "localhost, .example.org" "git.example.org" eq_refl) as (b & E & X).
  - cbn. intuition discriminate.
  - discriminate.
  - rewrite M in E. injection E as <-. now apply X.
Qed.

(** ** C124: proxies *)

(** A host that is exempt gets no proxy. *)
Theorem C124_exempt : forall (parse : string -> option parts) (parse_path permissive : string -> option string)
    (env : environment) (c : config) (url : string) (u : parts) (host v : string),
  parse url = Some u -> p_host u = Some host -> ~ In ":"%char (list_ascii_of_string host) -> (forall r, host <> String "." r) ->
  e_no_proxy env = Some v \/ e_NO_PROXY env = Some v -> exempt v host (p_given u) ->
  GetProxySettings parse parse_path permissive env (Some c) url = Proxy None.
Proof.
  intros parse parse_path permissive env c url u host v EP EH NC ND EV EX. unfold GetProxySettings. rewrite EP.
  assert (G : forall w, exists b, NoproxyStringMatches u w = Some b /\ (b = true <-> exempt w host (p_given u))) by (intros w; now apply noproxy_spec).
  destruct EV as [-> | ->].
  - destruct (G v) as (b & -> & X). apply X in EX. now subst.
  - destruct (e_no_proxy env) as [w|].
    + destruct (G w) as ([|] & -> & _); [reflexivity|]. destruct (G v) as (b & -> & X). apply X in EX. now subst.
    + destruct (G v) as (b & -> & X). apply X in EX. now subst.
Qed.
Print Assumptions C124_exempt.

(** Otherwise the proxy is that of the most specific entry, then the generic one, then that of the
    environment. Partial: if no entry that applies is empty. *)
Theorem C124_proxy_partial : forall (parse : string -> option parts) (parse_path permissive : string -> option string)
    (env : environment) (c : config) (url : string) (u : parts) (host : string),
  parse url = Some u -> p_port u <> None -> (forall e, In e (c_specific c) -> key_fine parse u (fst e)) ->
  p_host u = Some host -> ~ In ":"%char (list_ascii_of_string host) -> (forall r, host <> String "." r) ->
  (forall v, e_no_proxy env = Some v \/ e_NO_PROXY env = Some v -> ~ exempt v host (p_given u)) ->
  (forall e d, In e (c_specific c) -> entry_applies parse u (fst e) d -> parse_path (snd e) <> Some "") ->
  (forall v w, to_use parse u (c_specific c) v -> parse_path v = Some w ->
     GetProxySettings parse parse_path permissive env (Some c) url = Proxy (permissive w)) /\
  (none_applies parse u (c_specific c) ->
     (forall v, c_generic c = Some v -> v <> "" -> GetProxySettings parse parse_path permissive env (Some c) url = Proxy (permissive v)) /\
     (c_generic c = None -> forall l, variables u env l ->
        (forall w, first_of l w -> GetProxySettings parse parse_path permissive env (Some c) url = Proxy (permissive w)) /\
        (Forall (fun x => x = None) l -> GetProxySettings parse parse_path permissive env (Some c) url = Proxy None))).
Proof.
  intros parse parse_path permissive env c url u host EP PU KF EH NC ND NX NE.
  destruct (collected parse u _ PU KF) as (l & EC & T1 & T2).
  assert (G : forall w, exists b, NoproxyStringMatches u w = Some b /\ (b = true <-> exempt w host (p_given u))) by (intros w; now apply noproxy_spec).
  assert (X1 : match e_no_proxy env with None => Some false | Some v => NoproxyStringMatches u v end = Some false).
  { destruct (e_no_proxy env) as [v|]; [|reflexivity]. destruct (G v) as ([|] & -> & X); [|reflexivity].
    exfalso. apply (NX v (or_introl eq_refl)). now apply X. }
  assert (X2 : match e_NO_PROXY env with None => Some false | Some v => NoproxyStringMatches u v end = Some false).
  { destruct (e_NO_PROXY env) as [v|]; [|reflexivity]. destruct (G v) as ([|] & -> & X); [|reflexivity].
    exfalso. apply (NX v (or_intror eq_refl)). now apply X. }
  assert (X3 : existsb (fun m : degree * string => match parse_path (snd m) with Some v => String.eqb v "" | None => false end) l = false).
  { destruct (existsb _ l) eqn:E; [|reflexivity]. apply existsb_exists in E. destruct E as ([d v] & I & E). apply T2 in I. destruct I as (key & I & A).
    exfalso. apply (NE _ _ I A). cbn in E |- *. destruct (parse_path v); [|discriminate]. apply String.eqb_eq in E. congruence. }
  assert (U : forall d w r v, l = (d, w) :: r -> to_use parse u (c_specific c) v -> v = w).
  { intros d w r v -> X. apply to_use_best in X. destruct X as [d' X]. exact (best_unique _ _ _ _ _ _ _ X T1). }
  unfold GetProxySettings. rewrite EP, X1, X2, EC, X3. split.
  - intros v w X EV. destruct l as [|[d w'] r].
    + exfalso. destruct X as (b & k & d & a & E & A & _). apply (T1 (k, v) d); [rewrite E; apply in_or_app; right; now left|exact A].
    + now rewrite <- (U _ _ _ _ eq_refl X), EV.
  - intros NA. assert (EL : l = []).
    { destruct l as [|[d w] r]; [reflexivity|]. exfalso. destruct T1 as (b & k & a & E & A & _).
      apply (NA (k, w) d); [rewrite E; apply in_or_app; right; now left|exact A]. }
    rewrite EL. split.
    + intros v -> N. destruct (String.eqb_spec v ""); [congruence|reflexivity].
    + intros -> vl V.
      assert (EV : ((if opt_eqb (p_scheme u) (Some "https") then [e_https_proxy env; e_HTTPS_PROXY env]
                                        else if opt_eqb (p_scheme u) (Some "http") then [e_http_proxy env] else []) ++
                                       [e_all_proxy env; e_ALL_PROXY env]) = vl).
      { destruct V as [[ES ->]|[[ES ->]|(N1 & N2 & ->)]]; [rewrite ES; reflexivity|rewrite ES; reflexivity|].
        destruct (opt_eqb (p_scheme u) (Some "https")) eqn:Q1; [apply opt_eqb_eq in Q1; congruence|].
        destruct (opt_eqb (p_scheme u) (Some "http")) eqn:Q2; [apply opt_eqb_eq in Q2; congruence|]. reflexivity. }
      rewrite EV. split.
      * intros w F. now rewrite (first_of_set _ _ F).
      * intros F. now rewrite (none_set _ F).
Qed.
Print Assumptions C124_proxy_partial.

(** If any entry that applies is empty there is no proxy, even if the most specific entry has one; git would
    use that one. *)
Theorem C124_empty_refuted : exists (parse : string -> option parts) (url : string) (u : parts) (c : config) (v : string),
  parse url = Some u /\ (forall e, In e (c_specific c) -> key_fine parse u (fst e)) /\
  to_use parse u (c_specific c) v /\ v <> "" /\
  GetProxySettings parse Some Some (mkEnv None None None None None None None) (Some c) url = Proxy None.
Proof.
  set (c := mkCfg [("https://git.example.org", ""); ("https://git.example.org/team", "http://proxy")] None).
  assert (KF : forall e, In e (c_specific c) -> key_fine toy_parse the_parts (fst e)).
  { intros e I. cbn in I. repeat (destruct I as [<-|I]; [apply plain_fine; [reflexivity|intros p E; vm_compute in E; injection E as <-; now left]|]). destruct I. }
  exists toy_parse, the_url, the_parts, c, "http://proxy". split; [reflexivity|]. split; [exact KF|]. split; [|split; [discriminate|vm_compute; reflexivity]].
  destruct (collected toy_parse the_parts (c_specific c)) as (l & EC & T1 & _); [discriminate|exact KF|].
  assert (EL : exists d r, l = (d, "http://proxy") :: r) by (vm_compute in EC; injection EC as <-; eexists _, _; reflexivity).
  destruct EL as (d & r & ->). apply to_use_best. now exists d.
Qed.
Print Assumptions C124_empty_refuted.

(** An empty generic entry does not switch off the proxy of the environment; in git it does. *)
Theorem C124_generic_empty_refuted : exists (parse : string -> option parts) (url : string) (env : environment) (c : config) (w : string),
  c_specific c = [] /\ c_generic c = Some "" /\
  GetProxySettings parse Some Some env (Some c) url = Proxy (Some w).
Proof.
  exists toy_parse, the_url, (mkEnv None None (Some "http://proxy") None None None None), (mkCfg [] (Some "")), "http://proxy".
  repeat split; vm_compute; reflexivity.
Qed.
Print Assumptions C124_generic_empty_refuted.

Example C124_nonvacuous :
  let env := mkEnv (Some "localhost") None None (Some "http://b") (Some "http://c") None None in
  GetProxySettings toy_parse Some Some env (Some (mkCfg [("https://git.example.org/team", "http://a")] (Some "http://d"))) the_url = Proxy (Some "http://a") /\
  GetProxySettings toy_parse Some Some env (Some (mkCfg [("https://git.example.org/tea", "http://a")] (Some "http://d"))) the_url = Proxy (Some "http://d") /\
  GetProxySettings toy_parse Some Some env (Some (mkCfg [] None)) the_url = Proxy (Some "http://b") /\
  ~ exempt "localhost" "git.example.org" None.
Proof.
  repeat (split; [vm_compute; reflexivity|]). intros X.
  destruct (C123_no_proxy_partial the_parts "localhost" "git.example.org" eq_refl) as (b & E & Y).
  - cbn. intuition discriminate.
  - discriminate.
  - apply Y in X. subst b. vm_compute in E. discriminate.
Qed.
