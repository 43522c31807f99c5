(** Signing of the requests to subgraphs and the client they are sent with
    (crates/runtime-local/src/fetch/signing.rs, crates/runtime-local/src/fetch.rs,
    crates/gateway-config/src/message_signatures.rs).

    Simplifications: the file system, base64, PEM, JSON, elliptic curves and the signature itself are oracles; maps are
    lists; an identifier of a subgraph is its position in the schema; errors carry a kind and not their text; white space
    is that of ASCII. *)
From Coq Require Import List Bool Ascii String PeanoNat NArith.
Import ListNotations.
Open Scope string_scope.
Open Scope list_scope.

(** A computation that returns a value or an error, or panics. *)
Inductive outcome (E A : Type) :=
| Good (a : A)
| Bad (e : E)
| Panic.
Arguments Good {E A} a.
Arguments Bad {E A} e.
Arguments Panic {E A}.

Definition bind {E A B} (o : outcome E A) (f : A -> outcome E B) : outcome E B :=
  match o with Good a => f a | Bad e => Bad e | Panic => Panic end.

(** [Option::ok_or]. *)
Definition ok_or {E A} (e : E) (o : option A) : outcome E A :=
  match o with Some a => Good a | None => Bad e end.

(** [Option::or]. *)
Definition or_ {A} (a b : option A) : option A := match a with Some _ => a | None => b end.

Definition or_default {A} (d : A) (a : option A) : A := match a with Some a => a | None => d end.

(** ** Configuration (message_signatures.rs:4-118) *)

Inductive algorithm := HmacSha256 | Ed25519 | EcdsaP256 | EcdsaP384.

Definition alg_dec : forall a b : algorithm, {a = b} + {a <> b}.
Proof. decide equality. Defined.
Definition alg_eqb (a b : algorithm) : bool := if alg_dec a b then true else false.

Inductive key_source :=
| File (name : string) (id : option string)
| Inline (contents : string) (id : option string).

(** [MessageSigningKey::id] (message_signatures.rs:52-57). *)
Definition source_id (k : key_source) : option string :=
  match k with File _ id => id | Inline _ id => id end.

(** [MessageSigningKey::deserialize] (message_signatures.rs:60-85), from the fields [file], [inline] and [id]. *)
Definition read_source (file inline id : option string) : option key_source :=
  match file, inline with
  | None, None => None
  | Some _, Some _ => None
  | Some name, None => Some (File name id)
  | None, Some contents => Some (Inline contents id)
  end.

Inductive derived := Method | TargetUri | Authority | Scheme | RequestTarget | Path.

Inductive sig_parameter := Nonce.

Record sig_config := {
  c_enabled : option bool;
  c_algorithm : option algorithm;
  c_key : option key_source;
  c_expiry : option N;  (* in milliseconds *)
  c_include : option (list string);
  c_exclude : option (list string);
  c_derived : option (list derived);
  c_parameters : option (list sig_parameter)
}.

Record mtls_config := {
  m_root : option (string * bool);  (* the path of a certificate, whether it's a bundle *)
  m_identity : option string;
  m_accept_invalid : bool
}.

Record subgraph_config := {
  sc_signatures : option sig_config;
  sc_mtls : option mtls_config
}.

Record config := {
  g_signatures : sig_config;
  g_subgraphs : list (string * subgraph_config)
}.

(** [merge_config] (signing.rs:228-243). *)
Definition merge_config (into from : sig_config) : sig_config := {|
  c_enabled := or_ (c_enabled into) (c_enabled from);
  c_algorithm := or_ (c_algorithm into) (c_algorithm from);
  c_key := or_ (c_key into) (c_key from);
  c_expiry := or_ (c_expiry into) (c_expiry from);
  c_include := or_ (c_include into) (c_include from);
  c_exclude := or_ (c_exclude into) (c_exclude from);
  c_derived := or_ (c_derived into) (c_derived from);
  c_parameters := or_ (c_parameters into) (c_parameters from)
|}.

(** ** Keys *)

(** The bytes of a key.  [Secret a m kid]: an asymmetric key for the algorithm [a]. *)
Definition bytes := list N.
Inductive key :=
| Secret (a : algorithm) (material : bytes) (kid : option string)
| Shared (material : bytes) (kid : option string).

(** [SigningKey::alg] (signing.rs:328-333). *)
Definition key_alg (k : key) : algorithm :=
  match k with Secret a _ _ => a | Shared _ _ => HmacSha256 end.

(** [Jwk] (signing.rs:336-353). *)
Record jwk := {
  kty : string;
  kid : option string;
  crv : option string;
  d : option string;
  alg : option string;
  k : option string;
  x : option string;
  y : option string
}.

Inductive error :=
| NoKey  (* enabled, and no key *)
| NoFile
| BadKey  (* not parsed *)
| NotHmac  (* an inline key for something else *)
| WrongAlgorithm  (* the file has another kind of key *)
| BadComponents
| CannotSign
| BadCertificate.

(** [str::trim_start] and [starts_with('{')]. *)
Definition is_space (c : ascii) : bool :=
  let n := N_of_ascii c in (N.eqb n 32 || (N.leb 9 n && N.leb n 13))%N.
Fixpoint looks_like_json (s : string) : bool :=
  match s with
  | EmptyString => false
  | String c s => if is_space c then looks_like_json s else Ascii.eqb c "{"
  end.

Inductive component := Header (name : string) | Derived (c : derived).

(** A request. *)
Record request := {
  r_method : string;
  r_scheme : string;
  r_authority : string;
  r_path : string;
  r_query : string;  (* with its question mark *)
  r_headers : list (string * string);  (* one entry per value; names are lower case *)
  r_body : string
}.

(** The value of a component in the text that is signed (RFC 9421, section 2). *)
Fixpoint join (l : list string) : string :=
  match l with
  | [] => ""
  | [s] => s
  | s :: l => s ++ ", " ++ join l
  end%string.
Definition component_value (r : request) (c : component) : string :=
  match c with
  | Header h => join (map snd (filter (fun e => String.eqb (fst e) h) (r_headers r)))
  | Derived Method => r_method r
  | Derived TargetUri => r_scheme r ++ "://" ++ r_authority r ++ r_path r ++ r_query r
  | Derived Authority => r_authority r
  | Derived Scheme => r_scheme r
  | Derived RequestTarget => r_path r ++ r_query r
  | Derived Path => r_path r
  end%string.

Record params := {
  p_components : list component;
  p_created : N;
  p_expires : option N;
  p_nonce : option string;
  p_keyid : option string;
  p_alg : algorithm
}.

Record signature := {
  s_params : params;
  s_key : key;
  s_base : list (component * string)
}.

Record signing := {
  g_key : key;
  g_key_id : option string;
  g_expiry : option N;
  g_include : option (list string);
  g_exclude : list string;
  g_derived : list derived;
  g_parameters : list sig_parameter
}.

(** signing.rs:113-122. *)
Definition hop_by_hop : list string :=
  ["connection"; "keep-alive"; "proxy-authenticate"; "proxy-authorization"; "te"; "trailers"; "transfer-encoding";
   "upgrade"].

Definition mem (s : string) (l : list string) : bool := existsb (String.eqb s) l.

(** A client (reqwest): what it accepts and presents. *)
Record client := {
  cl_accept_invalid : bool;
  cl_roots : list string;  (* certificates, besides the usual ones *)
  cl_identity : option string
}.
Definition default_client : client := {| cl_accept_invalid := false; cl_roots := []; cl_identity := None |}.

Section Oracles.
Variable read : string -> option string.  (* the file system *)
Variable b64 : string -> option bytes.  (* SharedKey::from_base64 *)
Variable b64url : string -> option bytes.  (* BASE64_URL_SAFE_NO_PAD *)
Variable pem : string -> option (algorithm * bytes).  (* SecretKey::from_pem *)
Variable json : string -> option jwk.
Variable ec : algorithm -> string -> string -> string -> option bytes.  (* SecretKey::from_jwk, of x, y and d *)
Variable fingerprint : key -> string.  (* the identifier httpsig derives from a key *)
Variable component_ok : string -> bool.  (* HttpMessageComponentId::try_from *)
Variable try_new : list component -> bool.  (* HttpSignatureParams::try_new *)
Variable signs : key -> list (component * string) -> bool.  (* set_message_signature *)
Variable certificate : string -> option string.  (* Certificate::from_pem *)
Variable bundle : string -> option (list string).  (* Certificate::from_pem_bundle *)
Variable identity : string -> option string.  (* Identity::from_pem *)

Let res := outcome error.

(** [Key::key_id] (signing.rs:319-326). *)
Definition key_id (k : key) : string :=
  match k with
  | Secret _ _ (Some id) => id
  | Shared _ (Some id) => id
  | _ => fingerprint k
  end.

(** [validate_private_key] (signing.rs:437-441). *)
Definition validate_private_key (j : jwk) : res string := ok_or BadKey (d j).

(** [ec_key_from_jwk] with [TryFrom<Jwk>] (signing.rs:443-450, 470-500). *)
Definition ec_key_from_jwk (a : algorithm) (j : jwk) : res bytes :=
  bind (ok_or BadKey (crv j)) (fun _ =>
  bind (ok_or BadKey (d j)) (fun d =>
  bind (ok_or BadKey (x j)) (fun x =>
  bind (ok_or BadKey (y j)) (fun y => ok_or BadKey (ec a x y d))))).

(** [copy_from_slice] panics when the lengths differ. *)
Definition copy_from_slice (len : nat) (src : bytes) : res bytes :=
  if Nat.eqb (List.length src) len then Good src else Panic.

(** [parse_ed25519] (signing.rs:409-435). *)
Definition parse_ed25519 (j : jwk) : res key :=
  bind (validate_private_key j) (fun private_b64 =>
  match x j with
  | None => Bad BadKey
  | Some public_b64 =>
    match b64url private_b64, b64url public_b64 with
    | Some private, Some public =>
      if negb (Nat.eqb (List.length private + List.length public) 64) then Bad BadKey
      else
        bind (copy_from_slice 32 private) (fun lo =>
        bind (copy_from_slice 32 public) (fun hi => Good (Secret Ed25519 (lo ++ hi) (kid j))))
    | _, _ => Bad BadKey
    end
  end).

(** [parse_jwk] (signing.rs:355-407). *)
Definition parse_jwk (data : string) : res key :=
  match json data with
  | None => Bad BadKey
  | Some j =>
    let ec_key a :=
      bind (validate_private_key j) (fun _ => bind (ec_key_from_jwk a j) (fun m => Good (Secret a m (kid j)))) in
    if String.eqb (kty j) "EC" then
      match crv j with
      | Some c => if String.eqb c "P-256" then ec_key EcdsaP256
                  else if String.eqb c "P-384" then ec_key EcdsaP384 else Bad BadKey
      | None => Bad BadKey
      end
    else if String.eqb (kty j) "OKP" then
      match crv j with
      | Some c => if String.eqb c "Ed25519" then parse_ed25519 j else Bad BadKey
      | None => Bad BadKey
      end
    else if String.eqb (kty j) "oct" then
      match alg j with
      | Some a =>
        if String.eqb a "HS256" then
          match k j with
          | None => Bad BadKey
          | Some s => match b64url s with None => Bad BadKey | Some m => Good (Shared m (kid j)) end
          end
        else Bad BadKey
      | None => Bad BadKey
      end
    else Bad BadKey
  end.

(** [Key::from_string] (signing.rs:258-270). *)
Definition from_string (contents : string) (a : option algorithm) : res key :=
  match or_default HmacSha256 a with
  | HmacSha256 => bind (ok_or BadKey (b64 contents)) (fun m => Good (Shared m None))
  | _ => Bad NotHmac
  end.

(** [Key::from_file] (signing.rs:272-309). *)
Definition from_file (name : string) (a : option algorithm) : res key :=
  bind (ok_or NoFile (read name)) (fun data =>
  bind (if looks_like_json data then parse_jwk data
        else match a with
             | Some HmacSha256 => bind (ok_or BadKey (b64 data)) (fun m => Good (Shared m None))
             | _ => bind (ok_or BadKey (pem data)) (fun am => Good (Secret (fst am) (snd am) None))
             end) (fun key =>
  match key, a with
  | _, None => Good key
  | Shared _ _, Some HmacSha256 => Good key
  | Secret Ed25519 _ _, Some Ed25519 => Good key
  | Secret EcdsaP256 _ _, Some EcdsaP256 => Good key
  | Secret EcdsaP384 _ _, Some EcdsaP384 => Good key
  | _, Some _ => Bad WrongAlgorithm
  end)).

(** [Key::load_from] (signing.rs:251-256). *)
Definition load_from (s : key_source) (a : option algorithm) : res key :=
  match s with
  | File name _ => from_file name a
  | Inline contents _ => from_string contents a
  end.

(** ** Parameters *)

(** [SigningParameters::from_config] (signing.rs:125-171). *)
Definition from_config (c : sig_config) (global : option sig_config) : res (option signing) :=
  let c := match global with Some g => merge_config c g | None => c end in
  if negb (or_default false (c_enabled c)) then Good None
  else
    match c_key c with
    | None => Bad NoKey
    | Some source =>
      bind (load_from source (c_algorithm c)) (fun key =>
      Good (Some {|
        g_key := key;
        g_key_id := source_id source;
        g_expiry := c_expiry c;
        g_include := c_include c;
        g_exclude := or_default [] (c_exclude c) ++ hop_by_hop;
        g_derived := or_default [RequestTarget] (c_derived c);
        g_parameters := or_default [] (c_parameters c)
      |}))
    end.

(** The map of names to identifiers (fetch.rs:48-51): the last one wins. *)
Fixpoint to_id_from (i : nat) (schema : list string) (name : string) : option nat :=
  match schema with
  | [] => None
  | n :: schema => or_ (to_id_from (S i) schema name) (if String.eqb n name then Some i else None)
  end.
Definition to_id := to_id_from 0.

(** [generate_subgraph_signing_parameters] (signing.rs:41-61): the first error ends the collection. *)
Fixpoint subgraph_parameters (global : sig_config) (schema : list string) (l : list (string * subgraph_config))
  : res (list (nat * option signing)) :=
  match l with
  | [] => Good []
  | (name, sc) :: l =>
    match to_id schema name, sc_signatures sc with
    | Some id, Some c =>
      bind (from_config c (Some global)) (fun p =>
      bind (subgraph_parameters global schema l) (fun rest => Good ((id, p) :: rest)))
    | _, _ => subgraph_parameters global schema l
    end
  end.

Record signer := { by_subgraph : list (nat * option signing); by_default : option signing }.

(** [RequestSigner::new] (signing.rs:28-39). *)
Definition new_signer (c : config) (schema : list string) : res signer :=
  bind (from_config (g_signatures c) None) (fun dflt =>
  bind (subgraph_parameters (g_signatures c) schema (g_subgraphs c)) (fun subs =>
  Good {| by_subgraph := subs; by_default := dflt |})).

(** [FxHashMap::get]: the last entry inserted. *)
Fixpoint get {A} (l : list (nat * A)) (id : nat) : option A :=
  match l with
  | [] => None
  | (i, a) :: l => or_ (get l id) (if Nat.eqb i id then Some a else None)
  end.

(** signing.rs:69-74. *)
Definition parameters_of (s : signer) (id : nat) : option signing :=
  match get (by_subgraph s) id with Some p => p | None => by_default s end.

(** [should_include_header] (signing.rs:213-225). *)
Definition should_include_header (p : signing) (name : string) : bool :=
  if mem name (g_exclude p) then false
  else match g_include p with
       | Some l => if mem name l then true else true
       | None => true
       end.

(** [httpsig_params] (signing.rs:173-211), at the time [now] in seconds. *)
Definition httpsig_params (p : signing) (headers : list (string * string)) (now : N) (nonce : string) : res params :=
  let names := map fst (filter (fun e => should_include_header p (fst e)) headers) in
  if negb (forallb component_ok names) then Bad BadComponents
  else
    let covered := map Header names ++ map Derived (g_derived p) in
    if negb (try_new covered) then Bad BadComponents
    else
      let keyid := match g_key p with Shared _ None => None | key => Some (key_id key) end in
      Good {|
        p_components := covered;
        p_created := now;
        p_expires := match g_expiry p with Some ms => Some (now + ms / 1000)%N | None => None end;
        p_nonce := match g_parameters p with [] => None | _ => Some nonce end;
        p_keyid := match g_key_id p with Some id => Some id | None => keyid end;
        p_alg := key_alg (g_key p)
      |}.

(** [RequestSigner::sign] (signing.rs:64-99).  The signature goes into two headers of the request. *)
Definition sign (s : signer) (id : nat) (r : request) (now : N) (nonce : string)
  : res (request * option signature) :=
  match parameters_of s id with
  | None => Good (r, None)
  | Some p =>
    bind (httpsig_params p (r_headers r) now nonce) (fun ps =>
    let base := map (fun c => (c, component_value r c)) (p_components ps) in
    if signs (g_key p) base then Good (r, Some {| s_params := ps; s_key := g_key p; s_base := base |})
    else Bad CannotSign)
  end.

(** ** Clients *)

Definition roots (m : mtls_config) : res (list string) :=
  match m_root m with
  | None => Good []
  | Some (path, is_bundle) =>
    bind (ok_or NoFile (read path)) (fun bytes =>
    if is_bundle : bool then ok_or BadCertificate (bundle bytes)
    else bind (ok_or BadCertificate (certificate bytes)) (fun c => Good [c]))
  end.

(** [generate_dedicated_http_clients] (fetch.rs:255-345). *)
Fixpoint dedicated_clients (schema : list string) (l : list (string * subgraph_config)) : res (list (nat * client)) :=
  match l with
  | [] => Good []
  | (name, sc) :: l =>
    match sc_mtls sc with
    | None => dedicated_clients schema l
    | Some m =>
      match m_root m, m_identity m with
      | None, None => dedicated_clients schema l
      | _, _ =>
        match to_id schema name with
        | None => dedicated_clients schema l
        | Some id =>
          bind (roots m) (fun rs =>
          bind (match m_identity m with
                | None => Good None
                | Some path =>
                  bind (ok_or NoFile (read path)) (fun bytes =>
                  bind (ok_or BadCertificate (identity bytes)) (fun i => Good (Some i)))
                end) (fun i =>
          bind (dedicated_clients schema l) (fun rest =>
          Good ((id, {| cl_accept_invalid := m_accept_invalid m; cl_roots := rs; cl_identity := i |}) :: rest))))
        end
      end
    end
  end.

Record fetcher := { f_signer : signer; f_clients : list (nat * client) }.

(** [NativeFetcher::new] (fetch.rs:47-61). *)
Definition new_fetcher (c : config) (schema : list string) : res fetcher :=
  bind (new_signer c schema) (fun s =>
  bind (dedicated_clients schema (g_subgraphs c)) (fun cs => Good {| f_signer := s; f_clients := cs |})).

(** [client] (fetch.rs:147-149). *)
Definition client_of (f : fetcher) (id : nat) : client :=
  match get (f_clients f) id with Some c => c | None => default_client end.

(** What leaves the gateway. *)
Record sent := { t_request : request; t_signature : option signature; t_client : client }.

(** How a request is sent: [execute] (fetch.rs:87-145), [graphql_over_sse_stream] (fetch.rs:164-200: neither signed nor sent
    with the subgraph's client) and [graphql_over_websocket_stream] (fetch.rs:202-236: its own connection). *)
Inductive transport := Http | Sse | Ws.

Definition send (f : fetcher) (t : transport) (id : nat) (r : request) (now : N) (nonce : string) : res sent :=
  match t with
  | Http =>
    bind (sign (f_signer f) id r now nonce) (fun rs =>
    Good {| t_request := fst rs; t_signature := snd rs; t_client := client_of f id |})
  | Sse | Ws => Good {| t_request := r; t_signature := None; t_client := default_client |}
  end.

End Oracles.
