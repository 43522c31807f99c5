(** Model of what happens to a request before and around the execution of operations.
    Source: crates/federated-server/src/router/{mod.rs (56-130: order of the layers), layers/csrf.rs (75-91),
    layers/extension.rs (84-180), graphql/http.rs}, crates/engine/src/engine.rs (71-90, 257-292),
    crates/engine/src/execution/request/{mod.rs (30-215), single.rs (65-98), stream.rs (119-215),
    well_formed_graphql_request.rs}, crates/engine/src/prepare/{with_cache.rs, without_cache.rs: the check of mutations}.
    Simplifications: hooks, authentication, contracts, the limiter, the body, the readers of requests, the preparation and
    execution of operations and the timeouts are a [world] that answers arbitrarily; the request is what they and the model
    look at.  Telemetry, metrics, compression, usage reports, MCP and response extensions are left out. *)
From Coq Require Import String List Bool Arith NArith.
From Verif.Front Require Import Status Negotiate.
Import ListNotations.
Local Open Scope nat_scope.
Local Open Scope list_scope.

Inductive method := GET | POST | HEAD | OPTIONS | OtherMethod (n : nat).
(** http::request::Parts *)
Record parts := {
  p_method : method;
  p_csrf : bool;                    (* the header of the configuration is there *)
  p_accept : accept_header;
  p_ctype : list string;
  p_mcp : option bool;              (* McpRequestContext: execute_mutations *)
  p_query : nat;                    (* the query of the uri *)
  p_rest : nat                      (* all else *)
}.
(** Hooks and authentication change headers only: wasi-component-loader .../since_0_23_0/instance/hooks.rs:51, since_0_18_0/instance/hooks.rs:54. *)
Definition rehead (p p' : parts) : parts :=
  {| p_method := p_method p; p_csrf := p_csrf p'; p_accept := p_accept p'; p_ctype := p_ctype p'; p_mcp := p_mcp p;
     p_query := p_query p; p_rest := p_rest p' |}.
Inductive kind := Query | Mutation | Subscription.
Inductive token := Anonymous | Token (n : nat).
Notation op := nat (only parsing).
Inductive batch := Single (o : op) | Batch (l : list op).
(** ErrorResponse: status, errors, headers *)
Record error := { e_status : N; e_errors : list code; e_headers : list nat }.
Definition refused (e : error) : response := Refused (e_status e) (e_errors e) (e_headers e) 0.

Inductive default := Deny | AnonymousDefault.
Record config := {
  c_csrf : bool;
  c_auth : bool;                    (* there are authentication extensions *)
  c_default : option default;       (* DefaultAuthenticationBehavior *)
  c_contract : option nat;          (* default contract key *)
  c_batching : bool;
  c_batch_limit : option nat
}.
Record world := {
  w_ser : response -> bool;
  w_on_request : parts -> error + parts * option nat;
  w_auth : parts -> parts * (error + token);
  w_contract : nat -> option error;
  w_limit : bool;                              (* the limiter lets the request pass *)
  w_body : N + nat;                            (* a status, or the bytes *)
  w_json : nat -> option batch;
  w_cbor : nat -> option batch;
  w_params : nat -> option op;
  w_limit_first : bool;                        (* whether the limiter answers before the body is read, if both fail *)
  w_early : bool;                              (* the timeout fires before both are done *)
  w_parse : op -> response + kind;             (* up to the parsed operation, or the cached one *)
  w_rest : token -> op -> option response;     (* the rest of the preparation *)
  w_exec : op -> response;
  w_stream : op -> list response;
  w_patience : option (nat * bool);            (* operations done when the timeout fires, and whether the next has begun *)
  w_on_response : bool
}.

Inductive effect :=
| EHook | EAuth | EContract (key : nat) | ELimit | ERead | EExec (t : token) (o : op) | EHookEnd.
Inductive answer := Plain (status : N) | Graphql (h : http).

(** errors.rs:81-91 *)
Definition refuse (status : N) : response := Refused status [BadRequest] [] 0.
Definition timeout : response := RequestError [GatewayTimeout] 0.
Definition bad_request : response := RequestError [BadRequest] 0.

Section Serve.
Variable cfg : config.
Variable w : world.
Definition err (f : format) (r : response) : option answer := option_map Graphql (http_error (w_ser w) f r).

(** prepare_operation and execute_query_or_mutation, for a complete response: single.rs:65-98 *)
Definition single (t : token) (can_mutate : bool) (o : op) : list effect * response :=
  match w_parse w o with
  | inl r => ([], r)
  | inr k =>
      if (match k with Mutation => true | _ => false end) && negb can_mutate then ([], refuse 405)
      else match w_rest w t o with
           | Some r => ([], r)
           | None => match k with
                     | Subscription => ([], bad_request)
                     | _ => ([EExec t o], w_exec w o)
                     end
           end
  end.
(** Operations one after the other, under the timeout; None: it fired. well_formed_graphql_request.rs:91-101 *)
Fixpoint several (t : token) (can_mutate : bool) (l : list op) (patience : option (nat * bool)) : list effect * option (list response) :=
  match l with
  | [] => ([], Some [])
  | o :: l =>
      match patience with
      | Some (0, begun) => (if begun then fst (single t can_mutate o) else [], None)
      | _ =>
          let '(e, r) := single t can_mutate o in
          let '(e', rs) := several t can_mutate l (match patience with Some (S n, b) => Some (n, b) | p => p end) in
          (e ++ e', option_map (cons r) rs)
      end
  end.
(** stream.rs:119-215 *)
Definition stream (t : token) (can_mutate : bool) (o : op) : list effect * list response :=
  match w_parse w o with
  | inl r => ([], match w_patience w with Some (0, _) => [timeout] | _ => [r] end)
  | inr k =>
      if (match k with Mutation => true | _ => false end) && negb can_mutate then
        ([], match w_patience w with Some (0, _) => [timeout] | _ => [refuse 405] end)
      else match w_rest w t o with
           | Some r => ([], match w_patience w with Some (0, _) => [timeout] | _ => [r] end)
           | None =>
               match k, w_patience w with
               | Subscription, Some (0, _) => ([], [timeout])
               | Subscription, _ => ([EExec t o], w_stream w o)
               | _, Some (0, begun) => (if begun then [EExec t o] else [], [timeout])
               | _, _ => ([EExec t o], [w_exec w o])
               end
           end
  end.

(** execute_well_formed_graphql_request *)
Definition well_formed (t : token) (can_mutate : bool) (f : format) (b : batch) : list effect * option answer :=
  match b with
  | Single o =>
      match f with
      | Streaming s => let '(e, l) := stream t can_mutate o in (e, option_map Graphql (http_stream (w_ser w) s l))
      | Complete c =>
          match several t can_mutate [o] (w_patience w) with
          | (e, None) => (e, err f timeout)
          | (e, Some rs) => (e, match rs with r :: _ => option_map Graphql (http_single (w_ser w) c r) | [] => None end)
          end
      end
  | Batch l =>
      match f with
      | Streaming _ => ([], err f bad_request)
      | Complete c =>
          if negb (c_batching cfg) then ([], err f bad_request)
          else if match c_batch_limit cfg with Some n => n <? List.length l | None => false end then ([], err f bad_request)
          else match several t can_mutate l (w_patience w) with
               | (e, None) => (e, err f timeout)
               | (e, Some rs) => (e, option_map Graphql (http_batch (w_ser w) c rs))
               end
      end
  end.

(** extract_well_formed_graphql_over_http_request *)
Definition extract (p : parts) (c : content) : response + batch :=
  match p_method p with
  | POST => match w_body w with
            | inl status => inl (refuse status)
            | inr bytes => match (match c with BodyJson => w_json w bytes | BodyCbor => w_cbor w bytes end) with
                           | Some b => inr b
                           | None => inl (refuse 400)
                           end
            end
  | _ => match w_params w (p_query p) with Some o => inr (Single o) | None => inl (refuse 400) end
  end.
(** Engine::execute: the limiter (create_graphql_context) and the body, at the same time, under the timeout. *)
Definition engine_execute (t : token) (can_mutate : bool) (f : format) (p : parts) (c : content) : list effect * option answer :=
  let effects := [ELimit; ERead] in
  if w_early w then (effects, err f timeout)
  else match extract p c, w_limit w with
       | inr b, true => let '(e, a) := well_formed t can_mutate f b in (effects ++ e, a)
       | inr _, false => (effects, err f (Refused 429 [RateLimited] [] 0))
       | inl r, true => (effects, err f r)
       | inl r, false => (effects, err f (if w_limit_first w then Refused 429 [RateLimited] [] 0 else r))
       end.

(** unpack_http_request, and ContractAwareEngine::execute *)
Definition unpack (p : parts) : response * format + format * content * bool :=
  match extract_format (p_accept p) with
  | None => inl (refuse 406, Complete Json)
  | Some f =>
      let c := match p_method p with
               | POST => match extract_content (p_ctype p) with Some c => inr c | None => inl (refuse 415) end
               | GET => inr BodyJson
               | _ => inl (refuse 405)
               end in
      match c with
      | inl r => inl (r, f)
      | inr c =>
          let can_mutate := match p_method p with POST => true | _ => false end in
          inr (f, c, match p_mcp p with Some b => can_mutate && b | None => can_mutate end)
      end
  end.
Definition contract_execute (t : token) (key : option nat) (p : parts) : list effect * option answer :=
  match unpack p with
  | inl (r, f) => ([], err f r)
  | inr (f, c, can_mutate) =>
      match key with
      | None => engine_execute t can_mutate f p c
      | Some k =>
          match w_contract w k with
          | Some e => ([EContract k], err f (refused e))
          | None => let '(e, a) := engine_execute t can_mutate f p c in (EContract k :: e, a)
          end
      end
  end.

(** extension.rs:101-136 *)
Definition authenticate (p : parts) : list effect * parts * (error + token) :=
  if c_auth cfg then
    let '(p', r) := w_auth w p in
    ([EAuth], rehead p p', match r with
                 | inr t => inr t
                 | inl e => match c_default cfg with Some AnonymousDefault => inr Anonymous | _ => inl e end
                 end)
  else ([], p, match c_default cfg with
               | Some Deny => inl {| e_status := 401; e_errors := [Unauthenticated]; e_headers := [] |}
               | _ => inr Anonymous
               end).

(** The route: get(execute).post(execute); axum answers HEAD with the handler of GET. *)
Definition route (t : token) (key : option nat) (p : parts) : list effect * option answer :=
  match p_method p with
  | GET | HEAD | POST => contract_execute t key p
  | _ => ([], Some (Plain 405))
  end.

(** CORS answers OPTIONS itself; then CSRF; then the extension layer. *)
Definition serve (p : parts) : list effect * option answer :=
  match p_method p with
  | OPTIONS => ([], Some (Plain 200))
  | _ =>
      if c_csrf cfg && negb (p_csrf p) then ([], Some (Plain 403))
      else
        let f := match extract_format (p_accept p) with Some f => f | None => Complete Json end in
        match w_on_request w p with
        | inl e => ([EHook], err f (refused e))
        | inr (p', key) =>
            match authenticate (rehead p p') with
            | (effects, _, inl e) => (EHook :: effects, err f (refused e))
            | (effects, p, inr t) =>
                match route t (match key with Some k => Some k | None => c_contract cfg end) p with
                | (e, None) => (EHook :: effects ++ e, None)
                | (e, Some a) =>
                    (EHook :: effects ++ e ++ [EHookEnd],
                     if w_on_response w then Some a else err f (Refused 500 [ExtensionError] [] 0))
                end
            end
        end
  end.
End Serve.
