(** Model of how just-mr takes settings for a URL from the git configuration and the environment:
    src/other_tools/utils/curl_url_handle.cpp (HostsMatch, PathMatchSize, ParseNoproxyPattern,
    NoproxyPatternMatches, GetConfigStructFromKey, ParseConfigKey, MatchConfigKey, NoproxyStringMatches) and
    src/other_tools/git_operations/git_config_settings.cpp.

    The URL parser of libcurl, libgit2's readers of booleans and paths, and the permissive parser for proxies
    are parameters. C++ exceptions and failures of curl other than missing parts are not modelled. *)
From Coq Require Import String Ascii List Bool Arith.
Import ListNotations.
Local Open Scope string_scope.
Local Open Scope list_scope.
Local Open Scope nat_scope.

(** The parts of a URL as given by [curl_url_get]; [p_port] is the port with [CURLU_DEFAULT_PORT], [p_given]
    the one without. *)
Record parts := mkParts {
  p_scheme : option string; p_user : option string; p_host : option string; p_port : option string;
  p_given : option string; p_path : string; p_query : option string; p_fragment : option string }.

(** [std::getline] until the end of the string: there is no token after a last delimiter. *)
Fixpoint getlines (d : ascii) (s : string) : list string :=
  match s with
  | EmptyString => []
  | String c r =>
      if Ascii.eqb c d then "" :: getlines d r
      else match getlines d r with
           | [] => [String c ""]
           | t :: ts => String c t :: ts
           end
  end.

(** The loops comparing tokens; the sizes have been compared before. *)
Fixpoint all_match (eq : string -> string -> bool) (k u : list string) : bool :=
  match k, u with
  | [], _ => true
  | a :: k', b :: u' => eq a b && all_match eq k' u'
  | _, [] => false
  end.

(** curl_url_handle.cpp:36-67 *)
Definition HostsMatch (key_host url_host : string) : bool :=
  let kt := getlines "." key_host in
  let ut := getlines "." url_host in
  Nat.eqb (List.length kt) (List.length ut) && all_match (fun a b => String.eqb a b || String.eqb a "*") kt ut.

(** curl_url_handle.cpp:69-102 *)
Definition PathMatchSize (key_path url_path : string) : option nat :=
  let kt := getlines "/" key_path in
  let ut := getlines "/" url_path in
  if Nat.ltb (List.length ut) (List.length kt) then None
  else if all_match String.eqb kt ut then Some (String.length key_path) else None.

(** [NoproxyPattern], and its parser, curl_url_handle.cpp:104-135 *)
Record noproxy := mkNo { host_tokens : list string; no_port : option string }.
Fixpoint until (d : ascii) (s : string) : string :=
  match s with
  | EmptyString => ""
  | String c r => if Ascii.eqb c d then "" else String c (until d r)
  end.
Fixpoint drop (n : nat) (s : string) : string :=
  match n, s with
  | O, _ => s
  | S m, String _ r => drop m r
  | _, EmptyString => ""
  end.
Definition ParseNoproxyPattern (pattern : string) : noproxy :=
  let host := until ":" pattern in
  let port := if Nat.eqb (String.length host) (String.length pattern) then None
              else Some (drop (String.length host + 1) pattern) in
  let host' := match host with String c r => if Ascii.eqb c "." then r else host | EmptyString => host end in
  mkNo (getlines "." host') port.

(** curl_url_handle.cpp:137-161 *)
Definition opt_eqb (a b : option string) : bool :=
  match a, b with Some x, Some y => String.eqb x y | None, None => true | _, _ => false end.
Definition NoproxyPatternMatches (test target : noproxy) : bool :=
  if match no_port test with Some _ => negb (opt_eqb (no_port test) (no_port target)) | None => false end then false
  else match host_tokens test, host_tokens target with
       | [], _ | _, [] => false
       | _, _ =>
           negb (Nat.ltb (List.length (host_tokens target)) (List.length (host_tokens test))) &&
           all_match String.eqb (rev (host_tokens test)) (rev (host_tokens target))
       end.

(** [NoproxyStringMatches], curl_url_handle.cpp:726-795; none: an error, as the URL has no host. *)
Definition NoproxyStringMatches (url : parts) (no_proxy : string) : option bool :=
  let patterns := filter (fun t => negb (String.eqb t "")) (flat_map (getlines ",") (getlines " " no_proxy)) in
  match p_host url with
  | None => None
  | Some h =>
      let hostport := ParseNoproxyPattern (h ++ match p_given url with Some p => ":" ++ p | None => "" end)%string in
      Some (existsb (fun p => String.eqb p "*" || NoproxyPatternMatches (ParseNoproxyPattern p) hostport) patterns)
  end.

(** [std::filesystem::path{"/"} / path], then query and fragment appended, then [/= ""]. *)
Fixpoint ends_with_slash (s : string) : bool :=
  match s with
  | EmptyString => false
  | String c EmptyString => Ascii.eqb c "/"
  | String _ r => ends_with_slash r
  end.
Definition full_path (p : parts) : string :=
  let base := match p_path p with
              | String c _ => if Ascii.eqb c "/" then p_path p else ("/" ++ p_path p)%string
              | EmptyString => "/"
              end in
  let all := (base ++ (match p_query p with Some q => "?" ++ q | None => "" end)
                   ++ (match p_fragment p with Some f => "#" ++ f | None => "" end))%string in
  if ends_with_slash all then all else (all ++ "/")%string.

(** [GitConfigKey] *)
Record config_key := mkKey {
  k_scheme : option string; k_user : option string; k_host : option string; k_port : option string; k_path : string }.
Inductive parsed := KeyError | Unparsable | Key (k : config_key).

(** [ConfigKeyMatchDegree], or an error. *)
Inductive matching := MatchError | NoMatch | Match (host_len path_len : nat) (user_matched : bool).

(** Matches of the regular expression made of a host, where each dot also stands for an asterisk; hosts with
    characters that are special in regular expressions (as in IPv6 addresses) are not modelled. *)
Fixpoint match_here (pat s : string) : option (string * string) :=
  match pat, s with
  | EmptyString, _ => Some ("", s)
  | String a p, String b r =>
      if Ascii.eqb a b || (Ascii.eqb a "." && Ascii.eqb b "*") then
        match match_here p r with Some (m, rest) => Some (String b m, rest) | None => None end
      else None
  | String _ _, EmptyString => None
  end.
(** [std::sregex_iterator]: the matches, with what is before and after; they do not overlap. *)
Fixpoint hits (pat before : string) (skip : nat) (s : string) : list (string * string * string) :=
  match s with
  | EmptyString => []
  | String c r =>
      let before' := (before ++ String c "")%string in
      match skip with
      | S k => hits pat before' k r
      | O => match match_here pat s with
             | Some (m, rest) => (before, m, rest) :: hits pat before' (pred (String.length m)) r
             | None => hits pat before' O r
             end
      end
  end.
Fixpoint dots (s : string) : string :=
  match s with
  | EmptyString => ""
  | String c r => String (if Ascii.eqb c "*" then "."%char else c) (dots r)
  end.
Fixpoint has_star (s : string) : bool :=
  match s with EmptyString => false | String c r => Ascii.eqb c "*" || has_star r end.

Section Parser.
  (** [Create]: none if the URL cannot be parsed. *)
  Context (parse : string -> option parts).

  (** curl_url_handle.cpp:332-461 *)
  Definition GetConfigStructFromKey (key : string) : option config_key :=
    match parse key with
    | None => None
    | Some p => Some (mkKey (p_scheme p) (p_user p) (p_host p) (p_port p) (full_path p))
    end.

  Fixpoint try_hits (host : string) (l : list (string * string * string)) : parsed :=
    match l with
    | [] => Unparsable
    | (a, m, b) :: r =>
        match GetConfigStructFromKey (a ++ host ++ b)%string with
        | Some k => Key (mkKey (k_scheme k) (k_user k) (Some m) (k_port k) (k_path k))
        | None => try_hits host r
        end
    end.
  (** curl_url_handle.cpp:463-537 *)
  Definition ParseConfigKey (key : string) : parsed :=
    if negb (has_star key) then
      match GetConfigStructFromKey key with Some k => Key k | None => Unparsable end
    else match parse (dots key) with
         | None => Unparsable
         | Some p => match p_host p with
                     | None => KeyError
                     | Some h => try_hits h (hits h "" 0 key)
                     end
         end.

  (** curl_url_handle.cpp:539-724 *)
  Definition MatchConfigKey (url : parts) (key : string) : matching :=
    match ParseConfigKey key with
    | KeyError => MatchError
    | Unparsable => NoMatch
    | Key k =>
        if negb (opt_eqb (k_scheme k) (p_scheme url)) then NoMatch
        else
          let after_user (user_matched : bool) :=
            if negb (opt_eqb (k_host k) (p_host url)) &&
               negb (match k_host k, p_host url with Some a, Some b => HostsMatch a b | _, _ => false end) then NoMatch
            else
              let host_len := match k_host k with Some h => String.length h | None => 0 end in
              match p_port url with
              | None => MatchError
              | Some _ =>
                  if negb (opt_eqb (k_port k) (p_port url)) then NoMatch
                  else match PathMatchSize (k_path k) (full_path url) with
                       | None => NoMatch
                       | Some n => Match host_len n user_matched
                       end
              end in
          match k_user k with
          | None => after_user false
          | Some x => match p_user url with
                      | None => MatchError
                      | Some y => if String.eqb x y then after_user true else NoMatch
                      end
          end
    end.

  (** ** git_config_settings.cpp *)
  Definition degree : Type := nat * nat * bool.

  (** [ConfigKeyMatchCompare], git_config_settings.cpp:48-66 *)
  Definition compare (left right : degree) : bool :=
    let '(h1, p1, u1) := left in
    let '(h2, p2, u2) := right in
    if negb (Nat.eqb h1 h2) then Nat.ltb h2 h1
    else if negb (Nat.eqb p1 p2) then Nat.ltb p2 p1
    else if negb (Bool.eqb u1 u2) then u1
    else true.
  (** [std::map::emplace] with this comparison, which is not a strict order: the descent in the tree goes to
      the left when the new key compares true with the one met, so the new one comes before the first such;
      as it compares false with its predecessor, it is not taken as present (stl_tree.h,
      [_M_get_insert_unique_pos]). *)
  Fixpoint emplace (d : degree) (v : string) (l : list (degree * string)) : list (degree * string) :=
    match l with
    | [] => [(d, v)]
    | (e, w) :: r => if compare d e then (d, v) :: l else (e, w) :: emplace d v r
    end.

  (** The loop over the entries, git_config_settings.cpp:149-172 and 265-284; none: an error. *)
  Fixpoint collect (url : parts) (entries : list (string * string)) (sofar : list (degree * string))
    : option (list (degree * string)) :=
    match entries with
    | [] => Some sofar
    | (key, v) :: r =>
        match MatchConfigKey url key with
        | MatchError => None
        | NoMatch => collect url r sofar
        | Match h p u => collect url r (emplace (h, p, u) v sofar)
        end
    end.

  (** The entries http.<url>.sslVerify and http.<url>.proxy, with the part between, in the order of the
      configuration, and the generic ones. *)
  Record config := mkCfg { c_specific : list (string * string); c_generic : option string }.

  (** [git_config_parse_bool] *)
  Context (parse_bool : string -> option bool).
  Inductive ssl := SslError | Check | Passthrough.

  (** [GetSSLCallback], git_config_settings.cpp:95-196; [git_config_get_bool] reads the generic value with the
      same function. *)
  Definition GetSSLCallback (no_verify_set : bool) (cfg : option config) (url : string) : ssl :=
    let result (check_cert : option bool) := match check_cert with Some false => Passthrough | _ => Check end in
    if no_verify_set then result (Some false)
    else match cfg with
         | None => result None
         | Some c =>
             let generic := match c_generic c with Some v => parse_bool v | None => None end in
             match parse url with
             | None => result generic
             | Some u =>
                 match collect u (c_specific c) [] with
                 | None => SslError
                 | Some [] => result generic
                 | Some ((_, v) :: _) =>
                     match parse_bool v with
                     | Some b => result (Some b)
                     | None => result generic
                     end
                 end
             end
         end.

  (** [git_config_parse_path], and [GetProxyAsPermissiveUrl] (git_config_settings.cpp:68-91): the URL, or no
      proxy. *)
  Context (parse_path : string -> option string) (permissive : string -> option string).
  Record environment := mkEnv {
    e_no_proxy : option string; e_NO_PROXY : option string; e_https_proxy : option string; e_HTTPS_PROXY : option string;
    e_http_proxy : option string; e_all_proxy : option string; e_ALL_PROXY : option string }.
  Inductive proxy := ProxyError | Proxy (url : option string).

  Fixpoint first_set (l : list (option string)) : option string :=
    match l with [] => None | Some v :: _ => Some v | None :: r => first_set r end.

  (** [GetProxySettings], git_config_settings.cpp:198-452 *)
  Definition GetProxySettings (env : environment) (cfg : option config) (url : string) : proxy :=
    match cfg with
    | None => Proxy None
    | Some c =>
        match parse url with
        | None => Proxy None
        | Some u =>
            let excluded e := match e with None => Some false | Some v => NoproxyStringMatches u v end in
            match excluded (e_no_proxy env) with
            | None => ProxyError
            | Some true => Proxy None
            | Some false =>
                match excluded (e_NO_PROXY env) with
                | None => ProxyError
                | Some true => Proxy None
                | Some false =>
                    match collect u (c_specific c) [] with
                    | None => ProxyError
                    | Some ms =>
                        if existsb (fun m => match parse_path (snd m) with Some v => String.eqb v "" | None => false end) ms
                        then Proxy None
                        else
                          let from_env :=
                            first_set ((if opt_eqb (p_scheme u) (Some "https") then [e_https_proxy env; e_HTTPS_PROXY env]
                                        else if opt_eqb (p_scheme u) (Some "http") then [e_http_proxy env] else []) ++
                                       [e_all_proxy env; e_ALL_PROXY env]) in
                          let rest :=
                            match c_generic c with
                            | Some v => if String.eqb v "" then match from_env with Some w => Proxy (permissive w) | None => Proxy None end
                                        else Proxy (permissive v)
                            | None => match from_env with Some w => Proxy (permissive w) | None => Proxy None end
                            end in
                          match ms with
                          | [] => rest
                          | (_, v) :: _ => match parse_path v with
                                           | Some w => Proxy (permissive w)
                                           | None => rest
                                           end
                          end
                    end
                end
            end
        end
    end.
End Parser.
