(** What clients may expect, stated apart from the model. *)
From Coq Require Import String Ascii List Bool Arith NArith ZArith.
From Verif.Front Require Import Status Negotiate Serve.
Import ListNotations.
Local Open Scope nat_scope.
Local Open Scope list_scope.

(** ** Status codes (GraphQL over HTTP) *)
Definition fault_of_request (c : code) : bool :=
  match c with
  | OperationParsingError | OperationValidationError | OperationPlanningError | VariableError
  | PersistedQueryNotFound | PersistedQueryError | TrustedDocumentError | BadRequest => true
  | _ => false
  end.
Definition fault_of_subgraph (c : code) : bool :=
  match c with SubgraphError | SubgraphInvalidResponseError | SubgraphRequestError => true | _ => false end.
Definition is_code (c d : code) : bool := if code_eq_dec c d then true else false.
(** The status of a request error: the first of these that applies to one of its errors. *)
Definition expected_status (errors : list code) : N :=
  if existsb fault_of_request errors then 400%N
  else if existsb (is_code Unauthorized) errors then 403%N
  else if existsb (is_code Unauthenticated) errors then 401%N
  else if existsb (is_code RateLimited) errors then 429%N
  else if existsb fault_of_subgraph errors then 502%N
  else if existsb (is_code GatewayTimeout) errors then 504%N
  else 500%N.
Definition is_error_status (s : N) : Prop := (400 <= s < 600)%N.
(** The status of one response by its format. *)
Definition status_of (f : complete) (r : response) : N :=
  match r with
  | Refused s _ _ _ => s
  | RequestError e _ => match f with Json => 200%N | GraphqlJson => expected_status e end
  | Executed _ _ => 200%N
  end.
(** The status of several: the first 4xx, otherwise the last that is not 2xx, otherwise 200. *)
Definition status_of_all (f : complete) (l : list response) : N :=
  let s := map (status_of f) l in
  match find (fun s => (N.leb 400 s && N.ltb s 500)%bool) s with
  | Some s => s
  | None => last (filter (fun s => negb (N.leb 200 s && N.ltb s 300)) s) 200%N
  end.

(** ** Accept (RFC 9110, 12.5.1) *)
Definition listed (h : accept_header) (m : media) : Prop := exists v, In (Some v) h /\ In (Some m) v.
(** Order of qualities: f32::total_cmp, without the sign of NaN. *)
Definition qlt (a b : quality) : Prop :=
  match a, b with
  | Fin x, Fin y => (x < y)%Z
  | NegInf, (Fin _ | PosInf | NaN) | Fin _, (PosInf | NaN) | PosInf, NaN => True
  | _, _ => False
  end.
Definition qle (a b : quality) : Prop := qlt a b \/ a = b.
(** The format that answers a type, wildcards with the server's choice. *)
Definition answers (e : essence) (f : format) : Prop :=
  match e, f with
  | (StarStar | AppStar | AppJson), Complete Json | AppGraphqlJson, Complete GraphqlJson
  | Multipart, Streaming Incremental | EventStream, Streaming Sse => True
  | _, _ => False
  end.

(** ** Content-Type: the type before parameters, without surrounding blanks, in lower case (RFC 9110, 8.3.1) *)
Definition lower (c : ascii) : ascii :=
  let n := nat_of_ascii c in if (65 <=? n) && (n <=? 90) then ascii_of_nat (n + 32) else c.
Fixpoint lowercase (s : string) : string := match s with EmptyString => EmptyString | String c s => String (lower c) (lowercase s) end.
Definition blank (c : ascii) : bool := (Nat.eqb (nat_of_ascii c) 32 || Nat.eqb (nat_of_ascii c) 9)%bool.
Fixpoint skip_blanks (s : string) : string := match s with String c s' => if blank c then skip_blanks s' else s | _ => s end.
Fixpoint trim_end (s : string) : string :=
  match s with
  | EmptyString => EmptyString
  | String c s => match trim_end s with EmptyString => if blank c then EmptyString else String c EmptyString | s => String c s end
  end.
Fixpoint until_semicolon (s : string) : string :=
  match s with
  | EmptyString => EmptyString
  | String c s => if Nat.eqb (nat_of_ascii c) 59 then EmptyString else String c (until_semicolon s)
  end.
Definition media_type (s : string) : string := lowercase (trim_end (skip_blanks (until_semicolon s))).
(** Types a page may send to another origin without asking first (Fetch, 2.2.2: CORS-safelisted request-header). *)
Definition safelisted (s : string) : Prop :=
  media_type s = "application/x-www-form-urlencoded"%string \/ media_type s = "multipart/form-data"%string \/ media_type s = "text/plain"%string.
(** A request that a page may send to another origin without asking first. *)
Definition simple_request (p : parts) : Prop :=
  match p_method p with
  | GET | HEAD => True
  | POST => p_ctype p = [] \/ exists v, p_ctype p = [v] /\ safelisted v
  | _ => False
  end.

(** ** What a request has to pass *)
Definition token_ok (cfg : config) (w : world) (p p' : parts) (t : token) : Prop :=
  if c_auth cfg then
    p' = rehead p (fst (w_auth w p)) /\
    (snd (w_auth w p) = inr t \/ (exists e, snd (w_auth w p) = inl e) /\ c_default cfg = Some AnonymousDefault /\ t = Anonymous)
  else p' = p /\ c_default cfg <> Some Deny /\ t = Anonymous.
(** The operations of the request as it was after the hooks. *)
Definition asks (w : world) (p : parts) (b : batch) : Prop :=
  (p_method p = GET /\ exists o, w_params w (p_query p) = Some o /\ b = Single o) \/
  (p_method p = POST /\ exists bytes, w_body w = inr bytes /\
    ((extract_content (p_ctype p) = Some BodyJson /\ w_json w bytes = Some b) \/
     (extract_content (p_ctype p) = Some BodyCbor /\ w_cbor w bytes = Some b))).
Record passed (cfg : config) (w : world) (p p2 : parts) (t : token) (f : format) (b : batch) : Prop := {
  pass_options : p_method p <> OPTIONS;
  pass_csrf : c_csrf cfg = true -> p_csrf p = true;
  pass_hook : exists p1 key, w_on_request w p = inr (p1, key) /\ token_ok cfg w (rehead p p1) p2 t /\
    (forall k, (match key with Some k => Some k | None => c_contract cfg end) = Some k -> w_contract w k = None);
  pass_accept : extract_format (p_accept p2) = Some f;
  pass_request : asks w p2 b;
  pass_limit : w_limit w = true;
  pass_early : w_early w = false
}.
Definition may_mutate (p : parts) : bool :=
  match p_method p, p_mcp p with POST, Some false => false | POST, _ => true | _, _ => false end.
(** An operation that is ready to be executed. *)
Definition ready (w : world) (p : parts) (t : token) (f : format) (o : op) : bool :=
  match w_rest w t o, w_parse w o with
  | None, inr Query => true
  | None, inr Mutation => may_mutate p
  | None, inr Subscription => match f with Streaming _ => true | Complete _ => false end
  | _, _ => false
  end.
Definition batch_ok (cfg : config) (f : format) (b : batch) : Prop :=
  match b with
  | Single _ => True
  | Batch l => (exists c, f = Complete c) /\ c_batching cfg = true /\ (forall n, c_batch_limit cfg = Some n -> List.length l <= n)
  end.
Definition ops_of (b : batch) : list op := match b with Single o => [o] | Batch l => l end.
Definition executed (l : list effect) : list (token * op) :=
  flat_map (fun e => match e with EExec t o => [(t, o)] | _ => [] end) l.
Definition prefix {A} (a b : list A) : Prop := exists c, b = a ++ c.
(** What an operation that is part of a complete response answers. *)
Definition answer_of (w : world) (p : parts) (t : token) (o : op) (r : response) : Prop :=
  w_parse w o = inl r \/
  (exists k, w_parse w o = inr k /\
    ((k = Mutation /\ may_mutate p = false /\ r = refuse 405) \/
     ((k = Mutation -> may_mutate p = true) /\
      (w_rest w t o = Some r \/
       (w_rest w t o = None /\ ((k = Subscription /\ r = bad_request) \/ (k <> Subscription /\ r = w_exec w o))))))).
(** The order of effects. *)
Definition exec_effects (l : list (token * op)) : list effect := map (fun x => EExec (fst x) (snd x)) l.
Definition in_order (cfg : config) (l : list effect) : Prop :=
  exists auth contract read ops finish,
    l = EHook :: auth ++ contract ++ read ++ exec_effects ops ++ finish /\
    auth = (if c_auth cfg then [EAuth] else []) /\
    (contract = [] \/ exists k, contract = [EContract k]) /\
    (read = [] \/ read = [ELimit; ERead]) /\
    (finish = [] \/ finish = [EHookEnd]) /\
    (read <> [] -> finish = [EHookEnd]) /\ (contract <> [] -> finish = [EHookEnd]) /\ (ops <> [] -> read <> []).
(** Media types of a header in order, and their qualities. *)
Definition media_list (h : accept_header) : list media :=
  flat_map (fun v => match v with Some l => flat_map (fun m => match m with Some m => [m] | None => [] end) l | None => [] end) h.
Definition acceptable (m : media) : Prop := exists f, answers (m_essence m) f.
Definition has_quality (m : media) (q : quality) : Prop :=
  (exists pre rest, m_params m = pre ++ ("q"%string, Some q) :: rest /\ ~ In "q"%string (map fst pre)) \/
  (q = Fin 1000 /\ ((exists pre rest, m_params m = pre ++ ("q"%string, None) :: rest /\ ~ In "q"%string (map fst pre)) \/ ~ In "q"%string (map fst (m_params m)))).
