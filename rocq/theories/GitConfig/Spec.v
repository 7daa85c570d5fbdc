(** When a key of the git configuration applies to a URL, which one is used, and which hosts need no proxy:
    git-config(1), "http.<url>.*", and the usual meaning of no_proxy. *)
From Coq Require Import String Ascii List Bool Arith.
From Verif Require Import GitConfig.Model.
Import ListNotations.
Local Open Scope string_scope.
Local Open Scope list_scope.
Local Open Scope nat_scope.

(** The parts of a string between delimiters; if it ends with a delimiter, nothing follows. *)
Fixpoint pieces (d : ascii) (s : string) : list string :=
  match s with
  | EmptyString => [""]
  | String c r =>
      if Ascii.eqb c d then "" :: pieces d r
      else match pieces d r with
           | [] => [String c ""]
           | t :: ts => String c t :: ts
           end
  end.
Definition labels (d : ascii) (s : string) : list string :=
  if String.eqb (last (pieces d s) "") "" then removelast (pieces d s) else pieces d s.

(** ** Keys

    What a key stands for. A key without asterisks is a URL. The host of a key with asterisks is found by
    reading the key with dots instead; it is at the first place where the host found fits. *)
Definition fits (host h : string) : Prop :=
  Forall2 (fun a b : ascii => a = b \/ (a = "."%char /\ b = "*"%char)) (list_ascii_of_string host) (list_ascii_of_string h).
Inductive reads (parse : string -> option parts) (key : string) : parts -> option string -> Prop :=
| reads_plain p : ~ In "*"%char (list_ascii_of_string key) -> parse key = Some p -> reads parse key p (p_host p)
| reads_stars p0 host a h b p :
    In "*"%char (list_ascii_of_string key) -> parse (dots key) = Some p0 -> p_host p0 = Some host -> host <> "" ->
    key = (a ++ h ++ b)%string -> fits host h ->
    (forall a' h' b', key = (a' ++ h' ++ b')%string -> fits host h' -> String.length a <= String.length a') ->
    parse (a ++ host ++ b)%string = Some p -> reads parse key p (Some h).
(** Not a URL. *)
Definition no_url (parse : string -> option parts) (key : string) : Prop :=
  (~ In "*"%char (list_ascii_of_string key) /\ parse key = None) \/
  (In "*"%char (list_ascii_of_string key) /\ parse (dots key) = None).

(** The path with query and fragment, starting and ending with a slash. *)
Definition is_full_path (p : parts) (s : string) : Prop :=
  exists base, (base = p_path p /\ (exists r, base = String "/" r) \/ base = ("/" ++ p_path p)%string /\ forall r, p_path p <> String "/" r) /\
    exists t, (s = t /\ (exists r, t = (r ++ "/")%string) \/ s = (t ++ "/")%string /\ forall r, t <> (r ++ "/")%string) /\
      t = (base ++ (match p_query p with Some q => "?" ++ q | None => "" end) ++
                   (match p_fragment p with Some f => "#" ++ f | None => "" end))%string.

(** The key, with parts [k] and host [kh], applies to the URL: same scheme, host (asterisks standing for
    labels), port, path (up to a slash), and user, if it has one. *)
Definition applies (k : parts) (kh : option string) (u : parts) : Prop :=
  p_scheme k = p_scheme u /\
  (kh = p_host u \/ exists a b, kh = Some a /\ p_host u = Some b /\
     Forall2 (fun x y => x = y \/ x = "*") (labels "." a) (labels "." b)) /\
  p_port k = p_port u /\
  (exists kp up rest, is_full_path k kp /\ is_full_path u up /\ up = (kp ++ rest)%string) /\
  (p_user k = None \/ p_user k = p_user u).
(** How specific it is: the length of the host, of the path, and whether it has a user. *)
Definition specific (k : parts) (kh : option string) (d : nat * nat * bool) : Prop :=
  fst (fst d) = match kh with Some h => String.length h | None => 0 end /\
  (exists kp, is_full_path k kp /\ snd (fst d) = String.length kp) /\
  (snd d = true <-> p_user k <> None).
Definition below (a b : nat * nat * bool) : Prop :=
  let '(h1, p1, u1) := a in let '(h2, p2, u2) := b in
  h1 < h2 \/ (h1 = h2 /\ (p1 < p2 \/ (p1 = p2 /\ u1 = false /\ u2 = true))).

(** An entry applies, with its specificity. *)
Definition entry_applies (parse : string -> option parts) (u : parts) (key : string) (d : nat * nat * bool) : Prop :=
  exists k kh, reads parse key k kh /\ applies k kh u /\ specific k kh d.
(** The one to be used: the most specific one, the last of these. *)
Definition to_use (parse : string -> option parts) (u : parts) (entries : list (string * string)) (v : string) : Prop :=
  exists before key d after, entries = before ++ (key, v) :: after /\ entry_applies parse u key d /\
    (forall e d', In e before -> entry_applies parse u (fst e) d' -> ~ below d d') /\
    (forall e d', In e after -> entry_applies parse u (fst e) d' -> below d' d).
Definition none_applies (parse : string -> option parts) (u : parts) (entries : list (string * string)) : Prop :=
  forall e d, In e entries -> ~ entry_applies parse u (fst e) d.
(** Keys that can be dealt with: they are URLs or not, and those for a user are for URLs with users. *)
Definition key_fine (parse : string -> option parts) (u : parts) (key : string) : Prop :=
  no_url parse key \/
  exists k kh, reads parse key k kh /\ (p_user k = None \/ p_user u <> None \/ p_scheme k <> p_scheme u).

(** ** no_proxy *)

(** Tokens are what is between spaces and commas. *)
Definition token (s t : string) : Prop :=
  t <> "" /\ exists w, In w (pieces " " s) /\ In t (pieces "," w).
(** Host, with one dot before it dropped, and port of a pattern. *)
Definition undotted (h h' : string) : Prop := h = String "." h' \/ (h = h' /\ forall r, h <> String "." r).
Definition pattern_host (t h : string) (port : option string) : Prop :=
  exists h', undotted h' h /\ ~ In ":"%char (list_ascii_of_string h') /\
    match port with None => t = h' | Some p => t = (h' ++ ":" ++ p)%string end.
(** A host needs no proxy: there is an asterisk, or a pattern for this host or a domain it is in, without
    port or with the port given. *)
Definition exempt (no_proxy host : string) (port : option string) : Prop :=
  exists t, token no_proxy t /\
    (t = "*" \/ exists h p l, pattern_host t h p /\ (p = None \/ p = port) /\ labels "." h <> [] /\
       labels "." host = l ++ labels "." h).

(** ** Proxies from the environment: the first variable that is set. *)
Definition variables (u : parts) (env : environment) (l : list (option string)) : Prop :=
  (p_scheme u = Some "https" /\ l = [e_https_proxy env; e_HTTPS_PROXY env; e_all_proxy env; e_ALL_PROXY env]) \/
  (p_scheme u = Some "http" /\ l = [e_http_proxy env; e_all_proxy env; e_ALL_PROXY env]) \/
  (p_scheme u <> Some "https" /\ p_scheme u <> Some "http" /\ l = [e_all_proxy env; e_ALL_PROXY env]).
Definition first_of (l : list (option string)) (w : string) : Prop :=
  exists a b, l = a ++ Some w :: b /\ Forall (fun x => x = None) a.
