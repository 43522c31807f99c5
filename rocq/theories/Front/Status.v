(** Model of how responses become HTTP responses.
    Source: crates/engine/src/graphql_over_http/{response.rs, response/stream.rs (15-75)}, crates/engine/error/src/code.rs,
    crates/engine/src/response/mod.rs (28-60, 120-190: the kinds of responses).
    Simplifications: a response is its kind, the codes of its errors and, if refused, a status and headers (numbers);
    [data] says what is serialized besides.  Serialization of a response may fail ([ser]).
    Telemetry is its counter of errors. *)
From Coq Require Import List Bool Arith NArith.
Import ListNotations.
Local Open Scope nat_scope.
Local Open Scope list_scope.

(** code.rs:20-47, in the order of the enum *)
Inductive code :=
| BadRequest | InternalServerError | TrustedDocumentError | PersistedQueryError | PersistedQueryNotFound
| SubgraphError | SubgraphInvalidResponseError | SubgraphRequestError | Unauthenticated | Unauthorized
| OperationParsingError | OperationValidationError | OperationPlanningError | VariableError | ExtensionError
| RateLimited | GatewayTimeout.
Definition codes : list code :=
  [BadRequest; InternalServerError; TrustedDocumentError; PersistedQueryError; PersistedQueryNotFound;
   SubgraphError; SubgraphInvalidResponseError; SubgraphRequestError; Unauthenticated; Unauthorized;
   OperationParsingError; OperationValidationError; OperationPlanningError; VariableError; ExtensionError;
   RateLimited; GatewayTimeout].
Definition code_eq_dec : forall a b : code, {a = b} + {a <> b}. Proof. decide equality. Defined.
(** into_http_status_code_with_priority, 56-77 *)
Definition status_priority (c : code) : N * N :=
  match c with
  | OperationParsingError | OperationValidationError | OperationPlanningError | VariableError
  | PersistedQueryNotFound | PersistedQueryError | TrustedDocumentError | BadRequest => (400%N, 1000%N)
  | Unauthenticated => (401%N, 600%N)
  | Unauthorized => (403%N, 600%N)
  | RateLimited => (429%N, 500%N)
  | SubgraphError | SubgraphInvalidResponseError | SubgraphRequestError => (502%N, 300%N)
  | GatewayTimeout => (504%N, 200%N)
  | ExtensionError | InternalServerError => (500%N, 0%N)
  end.

(** ErrorCodeCounter, 80-125: u16 for each code; additions wrap in release builds (in debug builds they panic). *)
Definition counter := code -> N.
Definition wrap (n : N) : N := N.modulo n 65536.
Definition increment (k : counter) (c : code) : counter := fun x => if code_eq_dec x c then wrap (k x + 1) else k x.
Definition no_errors : counter := fun _ => 0%N.
Definition from_errors (errors : list code) : counter := fold_left increment errors no_errors.
Definition add (a b : counter) : counter := fun x => wrap (a x + b x).
Definition iter (k : counter) : list code := filter (fun c => N.ltb 0 (k c)) codes.

(** Iterator::max_by_key: the last of the greatest. *)
Fixpoint max_by_key {A} (key : A -> N) (l : list A) : option A :=
  match l with
  | [] => None
  | x :: l => match max_by_key key l with
              | None => Some x
              | Some y => if N.ltb (key y) (key x) then Some x else Some y
              end
  end.

(** response/mod.rs:28-42 *)
Inductive response :=
| Refused (status : N) (errors : list code) (headers : list nat) (data : nat)
| RequestError (errors : list code) (data : nat)
| Executed (errors : list code) (data : nat).
Definition errors_of (r : response) : list code :=
  match r with Refused _ e _ _ => e | RequestError e _ => e | Executed e _ => e end.

(** format.rs:3-36 *)
Inductive complete := Json | GraphqlJson.
Inductive streaming := Incremental | Sse | Websocket.
Inductive format := Complete (f : complete) | Streaming (f : streaming).

(** compute_status_code, 210-262; None: unreachable!(). *)
Definition compute_status (f : format) (r : response) : option N :=
  match r with
  | Refused s _ _ _ => Some s
  | RequestError e _ =>
      match f with
      | Complete Json | Streaming Sse | Streaming Incremental => Some 200%N
      | Complete GraphqlJson =>
          Some (match max_by_key snd (map status_priority (iter (from_errors e))) with Some (s, _) => s | None => 500%N end)
      | Streaming Websocket => None
      end
  | Executed _ _ => Some 200%N
  end.

Inductive ctype := CJson | CGraphqlJson | CMultipart | CSse.
Definition ctype_of (f : complete) : ctype := match f with Json => CJson | GraphqlJson => CGraphqlJson end.
(** A body: the object of one response, an array of them, a stream of them, or the fixed text of an internal error. *)
Inductive body := One (r : response) | Many (l : list response) | Events (l : list response) | Internal.
Record http := { h_status : N; h_ctype : ctype; h_headers : list nat; h_body : body; h_telemetry : counter }.
(** internal_server_error, 264-288 *)
Definition internal_error : http :=
  {| h_status := 500; h_ctype := CJson; h_headers := []; h_body := Internal; h_telemetry := from_errors [InternalServerError] |}.

Section Encode.
(** Whether a response can be serialized. *)
Variable ser : response -> bool.

(** from_complete_response_with_telemetry, 171-201 *)
Definition from_complete (f : complete) (r : response) : option http :=
  if ser r then
    match compute_status (Complete f) r with
    | None => None
    | Some s =>
        Some {| h_status := s; h_ctype := ctype_of f; h_headers := match r with Refused _ _ h _ => h | _ => [] end;
                h_body := One r; h_telemetry := from_errors (errors_of r) |}
    end
  else Some internal_error.

(** encode_response, stream.rs:15-62: what arrives of a stream: all up to the first that can't be serialized. *)
Fixpoint events (l : list response) : list response :=
  match l with [] => [] | r :: l => if ser r then r :: events l else [] end.
(** stream_from_first_response_and_rest_without_extensions, 150-169 *)
Definition from_stream (f : streaming) (first : response) (rest : list response) : option http :=
  match compute_status (Streaming f) first, f with
  | None, _ | _, Websocket => None
  | Some s, _ =>
      Some {| h_status := s; h_ctype := match f with Sse => CSse | _ => CMultipart end; h_headers := [];
              h_body := Events (events (first :: rest)); h_telemetry := fold_left add (map (fun r => from_errors (errors_of r)) (first :: rest)) no_errors |}
  end.

(** Http::error, 27-44 *)
Definition http_error (f : format) (r : response) : option http :=
  match f with Complete f => from_complete f r | Streaming f => from_stream f r [] end.
(** Http::single, 46-55 *)
Definition http_single (f : complete) (r : response) : option http := from_complete f r.
(** Http::stream, 122-148 *)
Definition http_stream (f : streaming) (l : list response) : option http :=
  match l with [] => Some internal_error | r :: l => from_stream f r l end.
(** StatusCode::is_success, is_client_error *)
Definition is_success (s : N) : bool := (N.leb 200 s && N.ltb s 300)%bool.
Definition is_client_error (s : N) : bool := (N.leb 400 s && N.ltb s 500)%bool.
(** 71-79 *)
Fixpoint batch_status (f : complete) (l : list response) (s : N) : option N :=
  match l with
  | [] => Some s
  | r :: l =>
      if is_client_error s then batch_status f l s
      else match compute_status (Complete f) r with
           | None => None
           | Some other => batch_status f l (if is_success other then s else other)
           end
  end.
(** Http::batch, 57-120 *)
Definition http_batch (f : complete) (l : list response) : option http :=
  if forallb ser l then
    match batch_status f l 200 with
    | None => None
    | Some s =>
        Some {| h_status := s; h_ctype := ctype_of f; h_headers := []; h_body := Many l;
                h_telemetry := fold_left add (map (fun r => from_errors (errors_of r)) l) no_errors |}
    end
  else Some internal_error.
End Encode.
