(** What a browser does (the Fetch standard), and what a configuration says. *)
From Coq Require Import List Bool Ascii String NArith.
From Verif.Cors Require Import Model.
Import ListNotations.
Open Scope string_scope.
Open Scope list_scope.

(** A request by the script of a page, to another origin. [g_headers]: the names of the headers that are not safelisted. *)
Record page := { g_origin : string; g_method : string; g_headers : list string; g_credentials : bool }.

(** Fetch, 4.10 CORS check *)
Definition Check (g : page) (a : response) : Prop :=
  (g_credentials g = false /\ a_origin a = Some "*") \/
  (a_origin a = Some (g_origin g) /\ (g_credentials g = true -> a_credentials a = true)).

Definition Simple (m : string) : Prop := m = "GET" \/ m = "HEAD" \/ m = "POST".

(** Fetch, 4.8 CORS-preflight fetch *)
Definition Passes (g : page) (a : response) : Prop :=
  Check g a /\
  (Simple (g_method g) \/ In (g_method g) (a_methods a) \/ (g_credentials g = false /\ In "*" (a_methods a))) /\
  (forall h, In h (g_headers g) ->
     In h (a_headers a) \/ (g_credentials g = false /\ In "*" (a_headers a) /\ h <> "authorization")).

Definition preflight (g : page) : request :=
  {| r_method := "OPTIONS"; r_origin := Some (g_origin g); r_headers := []; r_wants_private := false |}.

Definition actual (g : page) : request :=
  {| r_method := g_method g; r_origin := Some (g_origin g); r_headers := g_headers g; r_wants_private := false |}.

(** A browser sends the request of a page if it needs no preflight or passes it. *)
Definition Sends (l : layer) (g : page) : Prop :=
  (Simple (g_method g) /\ g_headers g = []) \/ Passes g (respond l (preflight g)).

(** * Configurations *)

Definition Wild (s : string) : Prop := exists a c b, s = (a ++ String c b)%string /\ In c ["?"; "*"; "["; "]"; "{"; "}"; "!"; "\"]%char.

(** The origin is one of these: a plain one, or by a pattern. *)
Definition Listed (glob : string -> string -> bool) (l : list url) (s : string) : Prop :=
  exists u, In u l /\ ((~ Wild (u_origin u) /\ u_origin u = s) \/ (Wild (u_origin u) /\ glob (u_origin u) s = true)).

Definition PermitsOrigin (glob : string -> string -> bool) (config : option cors) (g : page) : Prop :=
  match config with
  | None => g_credentials g = false
  | Some c =>
    match allow_origins c with
    | None => False
    | Some Any => g_credentials g = false
    | Some (Explicit l) => Listed glob l (g_origin g) /\ (g_credentials g = true -> allow_credentials c = true)
    end
  end.

Definition PermitsMethod (config : option cors) (g : page) : Prop :=
  Simple (g_method g) \/
  match config with
  | None => g_method g = "*" \/ g_credentials g = false
  | Some c =>
    match allow_methods c with
    | None => False
    | Some Any => g_method g = "*" \/ g_credentials g = false
    | Some (Explicit l) => In (g_method g) l \/ (In "*" l /\ g_credentials g = false)
    end
  end.

(** Names of headers have no case. *)
Inductive SameLetter : ascii -> ascii -> Prop :=
| same c : SameLetter c c
| upper c d : (65 <= N_of_ascii c <= 90)%N -> N_of_ascii d = (N_of_ascii c + 32)%N -> SameLetter c d.

Inductive LowerOf : string -> string -> Prop :=
| lower_nil : LowerOf "" ""
| lower_cons c d s t : SameLetter c d -> ~ (65 <= N_of_ascii d <= 90)%N -> LowerOf s t -> LowerOf (String c s) (String d t).

Definition Open (g : page) (h : string) : Prop := g_credentials g = false /\ h <> "authorization".

Definition PermitsHeader (config : option cors) (g : page) (h : string) : Prop :=
  match config with
  | None => h = "*" \/ Open g h
  | Some c =>
    match allow_headers c with
    | None => False
    | Some Any => h = "*" \/ Open g h
    | Some (Explicit l) => (exists x, In x l /\ LowerOf x h) \/ (In "*" l /\ Open g h)
    end
  end.

Definition Permits (glob : string -> string -> bool) (config : option cors) (g : page) : Prop :=
  PermitsOrigin glob config g /\ PermitsMethod config g /\ forall h, In h (g_headers g) -> PermitsHeader config g h.

(** A header a page can read in the response (Fetch, 2.2.6), besides the safelisted ones. *)
Definition Readable (g : page) (a : response) (h : string) : Prop :=
  Check g a /\ (In h (a_expose a) \/ (g_credentials g = false /\ In "*" (a_expose a))).

Definition PermitsReading (config : option cors) (g : page) (h : string) : Prop :=
  match config with
  | None => h = "*" \/ g_credentials g = false
  | Some c =>
    match expose_headers c with
    | None => False
    | Some Any => h = "*" \/ g_credentials g = false
    | Some (Explicit l) => (exists x, In x l /\ LowerOf x h) \/ (In "*" l /\ g_credentials g = false)
    end
  end.

(** Names of headers: RFC 9110, token. *)
Definition Token (s : string) : Prop := s <> "" /\ forall a c b, s = (a ++ String c b)%string ->
  In c (list_ascii_of_string "!#$%&'*+-.^_`|~0123456789abcdefghijklmnopqrstuvwxyzABCDEFGHIJKLMNOPQRSTUVWXYZ").

(** Everything, in one of the lists. *)
Definition Star (o : option (any_or string)) : Prop := o = Some Any \/ o = Some (Explicit ["*"]).

(** A configuration that the gateway can start with. *)
Definition Usable (c : cors) : Prop :=
  (forall l x, allow_headers c = Some (Explicit l) \/ expose_headers c = Some (Explicit l) -> In x l -> Token x) /\
  (allow_credentials c = true ->
   allow_origins c <> Some Any /\ ~ Star (allow_methods c) /\ ~ Star (allow_headers c) /\ ~ Star (expose_headers c)).
