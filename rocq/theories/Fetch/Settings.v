(** Settings of a subgraph: what the gateway's configuration says, and what
    requests to the subgraph are made with (C48).

    Modelled code: crates/engine/schema/src/builder/subgraphs.rs 42-110,
    crates/engine/schema/src/builder/mod.rs 174-180 (the retries),
    crates/engine/schema/src/config/retry.rs,
    crates/engine/src/engine/retry_budget.rs,
    crates/engine/src/resolver/graphql/context.rs 54-57, with the configuration of
    crates/gateway-config/src/lib.rs 322-475 and entity_caching.rs.

    Durations are natural numbers, the percentage of retries is any number. *)

From Coq Require Import String List Bool NArith.
Import ListNotations.
Local Open Scope list_scope.

(** *** The configuration *)

(** gateway_config::RetryConfig. *)
Record retry_config := RetryConfig {
  rc_enabled : bool;
  rc_min_per_second : option N;
  rc_ttl : option N;
  rc_percent : option N;
  rc_mutations : bool
}.

(** SubgraphEntityCachingConfig. *)
Record caching_config := CachingConfig {
  cc_enabled : option bool;
  cc_ttl : option N
}.

Inductive protocol := Sse | Websocket.

(** The fields of gateway_config::SubgraphConfig used here. *)
Record subgraph_config := SubgraphConfig {
  sc_url : option string;
  sc_websocket_url : option string;
  sc_timeout : N;
  sc_retry : option retry_config;
  sc_caching : option caching_config;
  sc_protocol : option protocol
}.

(** SubgraphConfig::default, 438-457; DEFAULT_SUBGRAPH_TIMEOUT is 30 seconds. *)
Definition default_subgraph : subgraph_config := SubgraphConfig None None 30 None None None.

(** The fields of gateway_config::Config used here: gateway.retry,
    gateway.subgraph_timeout, entity_caching and subgraphs. *)
Record config := Config {
  g_retry : retry_config;
  g_subgraph_timeout : option N;
  g_caching_enabled : bool;
  g_caching_ttl : N;
  g_subgraphs : list (string * subgraph_config)
}.

(** *** Model *)

Definition get (c : config) (name : string) : subgraph_config :=
  match find (fun e => String.eqb (fst e) name) (g_subgraphs c) with
  | Some (_, s) => s
  | None => default_subgraph
  end.

(** engine_schema's RetryConfig, and From. *)
Record retry := Retry {
  r_min_per_second : option N;
  r_ttl : option N;
  r_percent : option N;
  r_mutations : bool
}.
Definition to_retry (r : retry_config) : retry :=
  Retry (rc_min_per_second r) (rc_ttl r) (rc_percent r) (rc_mutations r).

(** build_settings, mod.rs 179. *)
Definition schema_retry (c : config) : option retry :=
  if rc_enabled (g_retry c) then Some (to_retry (g_retry c)) else None.

(** engine_schema's SubgraphConfig. *)
Record settings := Settings {
  s_timeout : N;
  s_retry : option retry;
  s_cache_ttl : option N
}.

Definition or_else {A} (x y : option A) : option A := match x with Some _ => x | None => y end.

(** subgraphs.rs 82-93. *)
Definition build_settings (c : config) (name : string) : settings :=
  let s := get c name in
  let default_ttl := if g_caching_enabled c then Some (g_caching_ttl c) else None in
  Settings (sc_timeout s) (option_map to_retry (sc_retry s))
    (or_else
       match sc_caching s with
       | Some k =>
           if match cc_enabled k with Some e => e | None => g_caching_enabled c end then cc_ttl k else None
       | None => None
       end
       default_ttl).

(** subgraphs.rs 68 and 72-81: the URL, and how subscriptions are made; without a
    URL the subgraph is virtual. *)
Definition subgraph_url (c : config) (name : string) (in_sdl : option string) : option string :=
  or_else (sc_url (get c name)) in_sdl.
Definition subscription_protocol (c : config) (name : string) : protocol :=
  match sc_protocol (get c name) with
  | Some p => p
  | None => match sc_websocket_url (get c name) with Some _ => Websocket | None => Sse end
  end.

(** What a TpsBudget is made with. *)
Record budget := Budget {
  b_ttl : N;
  b_min_per_second : N;
  b_percent : N
}.

Definition unwrap_or {A} (x : option A) (d : A) : A := match x with Some v => v | None => d end.

Section Retry.

(** 0.2, the default percentage. *)
Variable default_percent : N.

(** RetryBudgets::build, retry_budget.rs 13-30. *)
Definition build_budget (c : config) (name : string) : option budget :=
  match or_else (s_retry (build_settings c name)) (schema_retry c) with
  | None => None
  | Some r => Some (Budget (unwrap_or (r_ttl r) 10%N) (unwrap_or (r_min_per_second r) 10%N) (unwrap_or (r_percent r) default_percent))
  end.

(** get_retry_budget_for_mutation, 38-52, and for other operations, 34-36;
    the choice is context.rs 54-57. *)
Definition retry_budget (c : config) (name : string) (mutation : bool) : option budget :=
  if mutation then
    match s_retry (build_settings c name) with
    | Some r => if r_mutations r then build_budget c name else None
    | None => None
    end
  else build_budget c name.

(** *** C48: retries *)

(** Mutations aren't retried unless the subgraph's own configuration says so. *)
Theorem C48_mutations : forall c name, retry_budget c name true <> None ->
  exists s r, In (name, s) (g_subgraphs c) /\ sc_retry s = Some r /\ rc_mutations r = true.
Proof.
  intros c name H. unfold retry_budget, build_settings, get in H. cbn [s_retry] in H.
  destruct (find _ (g_subgraphs c)) as [[n s]|] eqn:F; [|cbn in H; congruence].
  apply find_some in F. destruct F as [F1 F2]. cbn [fst] in F2. apply String.eqb_eq in F2. subst n.
  destruct (sc_retry s) as [r|] eqn:R; cbn [option_map] in H; [|congruence].
  exists s, r. split; [exact F1|]. split; [exact R|]. destruct (rc_mutations r) eqn:M; [reflexivity|].
  unfold to_retry in H. cbn [r_mutations] in H. rewrite M in H. congruence.
Qed.

(** Nothing about retries in the configuration: nothing is retried. *)
Theorem C48_off : forall c name mutation,
  rc_enabled (g_retry c) = false -> (forall s, In (name, s) (g_subgraphs c) -> sc_retry s = None) ->
  retry_budget c name mutation = None.
Proof.
  intros c name mutation E H.
  assert (R : s_retry (build_settings c name) = None).
  { unfold build_settings, get. cbn [s_retry].
    destruct (find _ (g_subgraphs c)) as [[n s]|] eqn:F; [|reflexivity].
    apply find_some in F. destruct F as [F1 F2]. cbn [fst] in F2. apply String.eqb_eq in F2. subst n.
    rewrite (H _ F1). reflexivity. }
  unfold retry_budget, build_budget, schema_retry. rewrite R, E. destruct mutation; reflexivity.
Qed.

(** Other operations: the subgraph's own configuration comes first, then the
    gateway's if it is enabled. *)
Theorem C48_queries : forall c name,
  let own := sc_retry (get c name) in
  retry_budget c name false =
    match own with
    | Some r => Some (Budget (unwrap_or (rc_ttl r) 10%N) (unwrap_or (rc_min_per_second r) 10%N) (unwrap_or (rc_percent r) default_percent))
    | None =>
        let r := g_retry c in
        if rc_enabled r then
          Some (Budget (unwrap_or (rc_ttl r) 10%N) (unwrap_or (rc_min_per_second r) 10%N) (unwrap_or (rc_percent r) default_percent))
        else None
    end.
Proof.
  intros c name. cbv zeta. unfold retry_budget, build_budget, schema_retry, build_settings. cbn [s_retry].
  destruct (sc_retry (get c name)) as [r|]; cbn; [reflexivity|]. destruct (rc_enabled (g_retry c)); reflexivity.
Qed.

End Retry.

(** *** C48: caching *)

(** The time to live of a subgraph's responses. *)
Theorem C48_cache : forall c name,
  s_cache_ttl (build_settings c name) =
    match sc_caching (get c name) with
    | None => if g_caching_enabled c then Some (g_caching_ttl c) else None
    | Some k =>
        match cc_enabled k, g_caching_enabled c, cc_ttl k with
        | Some true, _, Some ttl => Some ttl
        | None, true, Some ttl => Some ttl
        | _, true, _ => Some (g_caching_ttl c)
        | _, false, _ => None
        end
    end.
Proof.
  intros c name. unfold build_settings. cbn [s_cache_ttl].
  destruct (sc_caching (get c name)) as [[[[|]|] [ttl|]]|]; cbn; destruct (g_caching_enabled c); reflexivity.
Qed.

(** Without any caching enabled in the configuration nothing is cached. *)
Theorem C48_cache_off : forall c name, g_caching_enabled c = false ->
  (forall s k, In (name, s) (g_subgraphs c) -> sc_caching s = Some k -> cc_enabled k <> Some true) ->
  s_cache_ttl (build_settings c name) = None.
Proof.
  intros c name E H. rewrite C48_cache, E. unfold get.
  destruct (find _ (g_subgraphs c)) as [[n s]|] eqn:F; [|reflexivity].
  apply find_some in F. destruct F as [F1 F2]. cbn [fst] in F2. apply String.eqb_eq in F2. subst n.
  destruct (sc_caching s) as [k|] eqn:K; [|reflexivity]. pose proof (H _ _ F1 K) as N.
  destruct (cc_enabled k) as [[|]|]; [congruence| |]; destruct (cc_ttl k); reflexivity.
Qed.

(** *** Examples, and what doesn't hold *)

Definition off : retry_config := RetryConfig false None None None false.
Definition on : retry_config := RetryConfig true None (Some 5%N) None true.
Definition with_retry (r : option retry_config) : subgraph_config := SubgraphConfig None None 30 r None None.
Definition with_caching (k : caching_config) : subgraph_config := SubgraphConfig None None 30 None (Some k) None.

Example C48_queries_example :
  retry_budget 20 (Config on None false 60 [("a", with_retry (Some (RetryConfig true (Some 1%N) None None false)))]%string) "a" false
    = Some (Budget 10 1 20) /\
  retry_budget 20 (Config on None false 60 []) "a" false = Some (Budget 5 10 20) /\
  retry_budget 20 (Config on None false 60 [("a", with_retry (Some on))]%string) "a" true = Some (Budget 5 10 20).
Proof. repeat split. Qed.

Example C48_off_example :
  retry_budget 20 (Config off None false 60 [("a", with_retry None)]%string) "a" false = None.
Proof. reflexivity. Qed.

Example C48_cache_example :
  s_cache_ttl (build_settings (Config off None true 60 []) "a") = Some 60%N /\
  s_cache_ttl (build_settings (Config off None false 60 [("a", with_caching (CachingConfig (Some true) (Some 5%N)))]%string) "a") = Some 5%N.
Proof. split; reflexivity. Qed.

(** "Should we retry or not": a subgraph that says no is retried. *)
Theorem C48_disabled_retry_refuted : exists c name s r,
  In (name, s) (g_subgraphs c) /\ sc_retry s = Some r /\ rc_enabled r = false /\
  forall p, retry_budget p c name false <> None.
Proof.
  exists (Config off None false 60 [("a", with_retry (Some off))]%string), "a"%string, (with_retry (Some off)), off.
  split; [left; reflexivity|]. repeat split. discriminate.
Qed.

(** A gateway that retries mutations doesn't. *)
Theorem C48_gateway_mutations_refuted : exists c,
  rc_enabled (g_retry c) = true /\ rc_mutations (g_retry c) = true /\
  forall p name, retry_budget p c name true = None.
Proof. exists (Config on None false 60 []). repeat split. Qed.

(** A subgraph for which caching is disabled is cached, and one for which it is
    enabled, with the gateway's time to live, isn't. *)
Theorem C48_disabled_cache_refuted : exists c name s k,
  In (name, s) (g_subgraphs c) /\ sc_caching s = Some k /\ cc_enabled k = Some false /\
  s_cache_ttl (build_settings c name) <> None.
Proof.
  exists (Config off None true 60 [("a", with_caching (CachingConfig (Some false) None))]%string), "a"%string,
    (with_caching (CachingConfig (Some false) None)), (CachingConfig (Some false) None).
  split; [left; reflexivity|]. repeat split. discriminate.
Qed.

Theorem C48_enabled_cache_refuted : exists c name s k,
  In (name, s) (g_subgraphs c) /\ sc_caching s = Some k /\ cc_enabled k = Some true /\
  s_cache_ttl (build_settings c name) = None.
Proof.
  exists (Config off None false 60 [("a", with_caching (CachingConfig (Some true) None))]%string), "a"%string,
    (with_caching (CachingConfig (Some true) None)), (CachingConfig (Some true) None).
  split; [left; reflexivity|]. repeat split.
Qed.

(** "Default timeout for subgraph requests": it isn't. *)
Theorem C48_timeout_refuted : forall t, exists c,
  g_subgraph_timeout c = Some t /\ forall name, s_timeout (build_settings c name) = 30%N.
Proof. intros t. exists (Config off (Some t) false 60 []). split; reflexivity. Qed.
