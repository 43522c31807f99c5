(** What pages of other origins may do: the CORS and CSRF layers.
    crates/federated-server/src/router/layers/{cors.rs,csrf.rs}, crates/federated-server/src/router/mod.rs:60-80,
    crates/gateway-config/src/cors.rs. *)
From Coq Require Import List Bool Ascii String NArith.
Import ListNotations.
Open Scope string_scope.
Open Scope list_scope.

(** crates/gateway-config/src/cors.rs AnyOrArray *)
Inductive any_or (A : Type) :=
| Any
| Explicit (l : list A).
Arguments Any {A}.
Arguments Explicit {A} l.

(** A value of the configuration file. *)
Inductive setting := Text (s : string) | Texts (l : list string).

Fixpoint read_each {A} (parse : string -> option A) (l : list string) : option (list A) :=
  match l with
  | [] => Some []
  | s :: rest =>
    match parse s, read_each parse rest with
    | Some a, Some r => Some (a :: r)
    | _, _ => None
    end
  end.

(** crates/gateway-config/src/cors.rs Deserialize for AnyOrArray. [parse]: FromStr and Deserialize of the elements. *)
Definition read_any_or {A} (parse : string -> option A) (v : setting) : option (any_or A) :=
  match v with
  | Text s =>
    if String.eqb s "*" || String.eqb s "any" then Some Any
    else match parse s with Some a => Some (Explicit [a]) | None => None end
  | Texts l => match read_each parse l with Some r => Some (Explicit r) | None => None end
  end.

(** A URL: what comes before its path, and the rest. The url crate has written it in ASCII. *)
Record url := { u_origin : string; u_rest : string }.

(** crates/gateway-config/src/cors.rs CorsConfig. Methods are their names. *)
Record cors := {
  allow_credentials : bool;
  allow_origins : option (any_or url);
  max_age : option N;
  allow_methods : option (any_or string);
  allow_headers : option (any_or string);
  expose_headers : option (any_or string);
  allow_private_network : bool
}.

(** tower_http AllowOrigin *)
Inductive origins := Constant (v : string) | OneOf (l : list string) | Where (f : string -> bool).

(** tower_http CorsLayer. A list of methods or headers is one value separated by commas in the code, which no name has in
    it; it is absent if the list is empty. *)
Record layer := {
  l_credentials : bool;
  l_origins : origins;
  l_methods : list string;
  l_headers : list string;
  l_expose : list string;
  l_max_age : option N;
  l_private : bool
}.

Definition wild_chars : list ascii := ["?"; "*"; "["; "]"; "{"; "}"; "!"; "\"]%char.

(** origin.chars().any(|c| ...), crates/federated-server/src/router/layers/cors.rs:46 *)
Fixpoint has_wild (s : string) : bool :=
  match s with
  | EmptyString => false
  | String c rest => existsb (Ascii.eqb c) wild_chars || has_wild rest
  end.

(** The characters of http::HeaderName. *)
Definition token_char (c : ascii) : bool :=
  let n := N_of_ascii c in
  (N.leb 48 n && N.leb n 57) || (N.leb 65 n && N.leb n 90) || (N.leb 97 n && N.leb n 122) ||
  existsb (Ascii.eqb c) ["!"; "#"; "$"; "%"; "&"; "'"; "*"; "+"; "-"; "."; "^"; "_"; "`"; "|"; "~"]%char.

Fixpoint token (s : string) : bool :=
  match s with
  | EmptyString => true
  | String c rest => token_char c && token rest
  end.

Definition lower_char (c : ascii) : ascii :=
  let n := N_of_ascii c in if (N.leb 65 n && N.leb n 90)%N then ascii_of_N (n + 32) else c.

Fixpoint lower (s : string) : string :=
  match s with EmptyString => "" | String c rest => String (lower_char c) (lower rest) end.

(** HeaderName::from_bytes *)
Definition header_name (s : string) : option string :=
  if negb (String.eqb s "") && token s then Some (lower s) else None.

(** Any, or a list of header names; a name that is none panics. cors.rs:96-121 *)
Definition names (o : option (any_or string)) : option (list string) :=
  match o with
  | None => Some []
  | Some Any => Some ["*"]
  | Some (Explicit l) => read_each header_name l
  end.

Section Globs.
(** fast_glob::glob_match *)
Variable glob : string -> string -> bool.

(** crates/federated-server/src/router/layers/cors.rs:38-82; AllowOrigin::list panics on an asterisk. *)
Definition origins_of (o : option (any_or url)) : option origins :=
  match o with
  | None => Some (OneOf [])
  | Some Any => Some (Constant "*")
  | Some (Explicit l) =>
    let globs := filter has_wild (map u_origin l) in
    let constants := filter (fun s => negb (has_wild s)) (map u_origin l) in
    match globs, constants with
    | [], _ => if existsb (String.eqb "*") constants then None else Some (OneOf constants)
    | _, [] => Some (Where (fun origin => existsb (fun g => glob g origin) globs))
    | _, _ => Some (Where (fun origin => existsb (String.eqb origin) constants || existsb (fun g => glob g origin) globs))
    end
  end.

(** tower_http: ensure_usable_cors_rules, when the layer is applied. *)
Definition is_star (l : list string) : bool := match l with [s] => String.eqb s "*" | _ => false end.

Definition usable (l : layer) : bool :=
  negb (l_credentials l) ||
  negb (is_star (l_headers l) || is_star (l_methods l) || match l_origins l with Constant v => String.eqb v "*" | _ => false end ||
        is_star (l_expose l)).

(** crates/federated-server/src/router/layers/cors.rs:23-126 cors_layer and crates/federated-server/src/router/mod.rs:61-64;
    None is a panic. *)
Definition build (config : option cors) : option layer :=
  match config with
  | None =>
    let l := {| l_credentials := false; l_origins := Constant "*"; l_methods := ["*"]; l_headers := ["*"]; l_expose := ["*"];
                l_max_age := None; l_private := false |} in
    if usable l then Some l else None
  | Some c =>
    match origins_of (allow_origins c), names (allow_headers c), names (expose_headers c) with
    | Some o, Some h, Some e =>
      let l := {| l_credentials := allow_credentials c; l_origins := o;
                  l_methods := match allow_methods c with None => [] | Some Any => ["*"] | Some (Explicit m) => m end;
                  l_headers := h; l_expose := e; l_max_age := max_age c; l_private := allow_private_network c |} in
      if usable l then Some l else None
    | _, _, _ => None
    end
  end.
End Globs.

(** What the layers see of a request. Names of headers are in lower case. *)
Record request := { r_method : string; r_origin : option string; r_headers : list string; r_wants_private : bool }.

(** The headers of a response that CORS is about. *)
Record response := {
  a_origin : option string;
  a_credentials : bool;
  a_methods : list string;
  a_headers : list string;
  a_expose : list string;
  a_max_age : option N;
  a_private : bool
}.

(** tower_http AllowOrigin::to_future *)
Definition answer_origin (o : origins) (origin : option string) : option string :=
  match o with
  | Constant v => Some v
  | OneOf l => match origin with Some s => if existsb (String.eqb s) l then Some s else None | None => None end
  | Where f => match origin with Some s => if f s then Some s else None | None => None end
  end.

Definition is_options (r : request) : bool := String.eqb (r_method r) "OPTIONS".

(** tower_http Cors::call *)
Definition respond (l : layer) (r : request) : response :=
  let o := is_options r in
  {| a_origin := answer_origin (l_origins l) (r_origin r);
     a_credentials := l_credentials l;
     a_methods := if o then l_methods l else [];
     a_headers := if o then l_headers l else [];
     a_expose := if o then [] else l_expose l;
     a_max_age := if o then l_max_age l else None;
     a_private := l_private l && r_wants_private r |}.

(** crates/federated-server/src/router/layers/csrf.rs: the name of the header, if it is enabled. OPTIONS does not get here:
    it is answered by CORS, which is the outer layer. *)
Definition reaches (csrf : option string) (r : request) : bool :=
  negb (is_options r) &&
  match csrf with
  | None => true
  | Some h =>
    is_options r || match header_name h with Some n => existsb (String.eqb n) (r_headers r) | None => false end
  end.
