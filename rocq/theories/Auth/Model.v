(** Model of the settings for encrypted connections, src/buildtool/auth/authentication.hpp, and of their
    use by clients and services.

    A file is given by what reading it yields; reading itself (authentication.hpp:201-221) is not
    modelled.  Messages are not modelled. *)
From Coq Require Import String Bool.
Local Open Scope string_scope.

(** An option that names a file: not given, the file cannot be read, or its content. *)
Inductive file := NotGiven | Unreadable | Content (s : string).

(** [Auth::TLS], authentication.hpp:35-48. *)
Record tls := mkTls { ca_cert : string; client_cert : string; client_key : string; server_cert : string; server_key : string }.

(** One of the steps that set a value, e.g. authentication.hpp:117-127: the value and whether there are
    arguments so far; [None] is the error. *)
Definition set_value (f : file) (default : string) (args : bool) : option (string * bool) :=
  match f with
  | NotGiven => Some (default, args)
  | Unreadable => None
  | Content s => Some (s, true)
  end.

Inductive built := Nothing | BuildError | Built (t : tls).

Definition empty (s : string) : bool := String.eqb s "".

(** [Auth::TLS::Builder::Build], authentication.hpp:90-191. *)
Definition Build (ca cc ck sc sk : file) : built :=
  match set_value ca "" false with
  | None => BuildError
  | Some (ca_cert, args) =>
  if (match ca with Content c => empty c | _ => false end) then BuildError else
  match set_value cc "" args with
  | None => BuildError
  | Some (client_cert, args) =>
  match set_value ck "" args with
  | None => BuildError
  | Some (client_key, args) =>
  if negb (Bool.eqb (empty client_cert) (empty client_key)) then BuildError else
  match set_value sc "" args with
  | None => BuildError
  | Some (server_cert, args) =>
  match set_value sk "" args with
  | None => BuildError
  | Some (server_key, args) =>
  if negb (Bool.eqb (empty server_cert) (empty server_key)) then BuildError else
  if negb args then Nothing else Built (mkTls ca_cert client_cert client_key server_cert server_key)
  end end end end end.

(** [CreateAuthConfig], main/main.cpp:224-250; the outer [None] is the error, the inner one no
    authentication.  That of just-mr (just_mr/setup_utils.cpp:326-349) is the same without the files of
    the server. *)
Definition CreateAuthConfig (ca cc ck sc sk : file) : option (option tls) :=
  match Build ca cc ck sc sk with
  | Built t => Some (Some t)
  | BuildError => None
  | Nothing => Some None
  end.
Definition CreateAuthConfigMr (ca cc ck : file) : option (option tls) := CreateAuthConfig ca cc ck NotGiven NotGiven.

(** Credentials of gRPC; an empty [pem_root_certs] of a client stands for the certificates of the system,
    an empty key and certificate for none. *)
Inductive channel := InsecureChannel | SslChannel (pem_root_certs pem_private_key pem_cert_chain : string).
(** [request]: whether certificates of clients are asked for; grpc::SslServerCredentialsOptions (a class
    outside /repo) does not ask for them unless told so. *)
Inductive service := InsecureService | SslService (pem_root_certs private_key cert_chain : string) (request : bool).

(** [CreateChannelWithCredentials], common/remote/client_common.hpp:36-55. *)
Definition channel_of (auth : option tls) : channel :=
  match auth with
  | Some t => SslChannel (ca_cert t) (client_key t) (client_cert t)
  | None => InsecureChannel
  end.

(** execution_service/server_implementation.cpp:99-116 and serve_service/serve_server_implementation.cpp:204-221. *)
Definition service_of (auth : option tls) : service :=
  match auth with
  | Some t => SslService (ca_cert t) (server_key t) (server_cert t) false
  | None => InsecureService
  end.
