(** Extensions of a gateway: how they are found on the disk, what they are allowed to do, which of them authenticate
    a request and what becomes of the request, and which events the hooks extension gets to see.
    crates/federated-server/src/extensions.rs, crates/wasi-component-loader/src/extension/config.rs,
    crates/wasi-component-loader/src/extension/collection/gateway.rs,
    crates/wasi-component-loader/src/extension/runtime/authentication.rs,
    crates/federated-server/src/router/{mod.rs,layers/extension.rs}, crates/event-queue/src/lib.rs. *)
From Coq Require Import List Bool String NArith Arith.
Import ListNotations.
Open Scope string_scope.
Open Scope list_scope.

(** semver::Version without its pre-release and build parts. *)
Definition version := (N * N * N)%type.

(** The order of semver::Version. *)
Definition version_ltb (a b : version) : bool :=
  let '(a1, a2, a3) := a in
  let '(b1, b2, b3) := b in
  (N.ltb a1 b1 || (N.eqb a1 b1 && (N.ltb a2 b2 || (N.eqb a2 b2 && N.ltb a3 b3))))%N.

(** crates/extension/src/manifest/v1.rs EventType, EventFilter. *)
Inductive event_type := EOperation | ESubgraph | EHttp | EExtension.
Inductive event_filter := FAll | FTypes (l : list event_type).

(** crates/extension/src/manifest/v1.rs:78-88 Type. The kinds that are neither authentication nor hooks are one. *)
Inductive kind := KAuthentication | KHooks (f : option event_filter) | KOther.

(** crates/extension/src/manifest/v1.rs ExtensionPermission. *)
Inductive permission := PNetwork | PStdout | PStderr | PEnvironment.

Definition permission_eqb (a b : permission) : bool :=
  match a, b with
  | PNetwork, PNetwork | PStdout, PStdout | PStderr, PStderr | PEnvironment, PEnvironment => true
  | _, _ => false
  end.

Definition event_eqb (a b : event_type) : bool :=
  match a, b with
  | EOperation, EOperation | ESubgraph, ESubgraph | EHttp, EHttp | EExtension, EExtension => true
  | _, _ => false
  end.

(** crates/extension/src/manifest/v1.rs:8-36 Manifest, the fields in use here. *)
Record manifest := {
  mf_name : string;
  mf_kind : kind;
  mf_permissions : list permission;
  mf_legacy_filter : option event_filter
}.

(** Directories an extension is read from: one given in the configuration, or the one of a version below
    grafbase_extensions/<key>. *)
Inductive location := LPath (p : string) | LInstalled (key : string) (v : version).

(** Files of such a directory. [FiManifest None]: it can't be opened or parsed. *)
Inductive file := FiWasm | FiManifest (m : option manifest) | FiOther (name : string).

(** An entry of grafbase_extensions/<key>: whether it is a directory ([None]: its type can't be read) and the version
    its name is, if it is one. *)
Record dirent := { de_dir : option bool; de_version : option version }.

(** The disk. Outer [None]: the directory can't be read; inner [None]: an entry of it can't be. *)
Record disk := {
  d_installed : string -> option (list (option dirent));
  d_content : location -> option (list (option file))
}.

(** crates/gateway-config/src/extensions.rs:50-60 StructuredExtensionConfig. A bare version is one with everything else
    absent (76-134). *)
Record ext_config := {
  xc_version : version -> bool;
  xc_path : option string;
  xc_flag : permission -> option bool;
  xc_pool : option N;
  xc_guest : option string
}.

Inductive error := EIo | ENoVersion (key : string) | EManifest | EMissing (key : string) | EName (key name : string).
Inductive result (A : Type) := ROk (a : A) | RErr (e : error).
Arguments ROk {A} a.
Arguments RErr {A} e.

(** crates/extension-catalog/src/catalog.rs Extension. *)
Record extension := { e_key : string; e_manifest : manifest; e_path : location }.

(** crates/federated-server/src/extensions.rs:63-95 of find_matching_extensions_in_dir. *)
Fixpoint find_version (req : version -> bool) (found : option version) (entries : list (option dirent))
  : result (option version) :=
  match entries with
  | [] => ROk found
  | None :: _ => RErr EIo
  | Some e :: rest =>
    match de_dir e with
    | None => RErr EIo
    | Some false => find_version req found rest
    | Some true =>
      match de_version e with
      | None => find_version req found rest
      | Some v =>
        if req v && match found with Some old => version_ltb old v | None => true end
        then find_version req (Some v) rest
        else find_version req found rest
      end
    end
  end.

(** crates/federated-server/src/extensions.rs:116-152 of load_extension_from_path: the loop over the files. *)
Fixpoint read_files (m : option manifest) (wasm : bool) (files : list (option file)) : result (option manifest * bool) :=
  match files with
  | [] => ROk (m, wasm)
  | None :: _ => RErr EIo
  | Some f :: rest =>
    match
      match f with
      | FiWasm => ROk (m, true)
      | FiManifest None => RErr EManifest
      | FiManifest (Some m') => ROk (Some m', wasm)
      | FiOther _ => ROk (m, wasm)
      end
    with
    | RErr e => RErr e
    | ROk (Some m', true) => ROk (Some m', true)
    | ROk (m', w') => read_files m' w' rest
    end
  end.

(** crates/federated-server/src/extensions.rs:107-176 load_extension_from_path. canonicalize of the file that was just
    listed succeeds. *)
Definition load_extension (d : disk) (at_ : location) (key : string) : result extension :=
  match d_content d at_ with
  | None => RErr EIo
  | Some files =>
    match read_files None false files with
    | RErr e => RErr e
    | ROk (Some m, true) =>
      if String.eqb (mf_name m) key then ROk {| e_key := key; e_manifest := m; e_path := at_ |}
      else RErr (EName key (mf_name m))
    | ROk _ => RErr (EMissing key)
    end
  end.

(** crates/federated-server/src/extensions.rs:51-105 find_matching_extensions_in_dir. *)
Definition find_extension (d : disk) (c : ext_config) (key : string) : result extension :=
  match d_installed d key with
  | None => RErr EIo
  | Some entries =>
    match find_version (xc_version c) None entries with
    | RErr e => RErr e
    | ROk None => RErr (ENoVersion key)
    | ROk (Some v) => load_extension d (LInstalled key v) key
    end
  end.

(** crates/federated-server/src/extensions.rs:28-49 create_extension_catalog_impl. Relative paths are taken to be joined
    to the current directory already. *)
Fixpoint create_catalog (d : disk) (config : list (string * ext_config)) : result (list extension) :=
  match config with
  | [] => ROk []
  | (key, c) :: rest =>
    match match xc_path c with Some p => load_extension d (LPath p) key | None => find_extension d c key end with
    | RErr e => RErr e
    | ROk x => match create_catalog d rest with RErr e => RErr e | ROk l => ROk (x :: l) end
    end
  end.

(** Option::unwrap_or *)
Definition unwrap_or {A} (o : option A) (a : A) : A := match o with Some x => x | None => a end.
(** Option::or *)
Definition or {A} (a b : option A) : option A := match a with Some _ => a | None => b end.

(** BTreeMap::get *)
Fixpoint get {A} (key : string) (l : list (string * A)) : option A :=
  match l with
  | [] => None
  | (k, a) :: rest => if String.eqb k key then Some a else get key rest
  end.

(** crates/wasi-component-loader/src/extension/config.rs ExtensionConfig, and its WasmConfig. *)
Record pool_config := {
  pc_id : nat;
  pc_name : string;
  pc_allowed : permission -> bool;
  pc_max : option N;
  pc_guest : string;
  pc_skip_events : bool
}.

(** crates/extension/src/manifest/v1.rs:61-75 network_enabled and the like. *)
Definition enabled (m : manifest) (p : permission) : bool := existsb (permission_eqb p) (mf_permissions m).

(** crates/wasi-component-loader/src/extension/config.rs:41-53 can_skip_sending_events. *)
Definition can_skip_events (catalog : list extension) : bool :=
  forallb (fun x =>
    match mf_kind (e_manifest x) with
    | KHooks f =>
      match or f (mf_legacy_filter (e_manifest x)) with
      | Some FAll => false
      | Some (FTypes l) => existsb (event_eqb EExtension) l
      | None => true
      end
    | _ => true
    end) catalog.

Definition cons_opt {A} (a : A) (l : option (list A)) : option (list A) :=
  match l with Some l => Some (a :: l) | None => None end.

(** crates/wasi-component-loader/src/extension/config.rs:55-95 the loop of load_extensions_config. [None]: the expect of
    the lookup of the configuration panics. *)
Fixpoint load_from (id : nat) (skip : bool) (config : list (string * ext_config)) (keep : kind -> bool)
    (catalog : list extension) : option (list pool_config) :=
  match catalog with
  | [] => Some []
  | x :: rest =>
    let m := e_manifest x in
    if keep (mf_kind m) then
      match get (mf_name m) config with
      | None => None
      | Some c =>
        cons_opt {| pc_id := id; pc_name := mf_name m;
                    pc_allowed := fun p => unwrap_or (xc_flag c p) (enabled m p);
                    pc_max := xc_pool c; pc_guest := unwrap_or (xc_guest c) ""; pc_skip_events := skip |}
          (load_from (S id) skip config keep rest)
      end
    else load_from (S id) skip config keep rest
  end.

(** crates/wasi-component-loader/src/extension/config.rs:33-97 load_extensions_config *)
Definition load_config (catalog : list extension) (config : list (string * ext_config)) (keep : kind -> bool)
  : option (list pool_config) :=
  load_from 0 (can_skip_events catalog) config keep catalog.

(** crates/wasi-component-loader/src/extension/collection/gateway.rs:53, the filter. *)
Definition of_gateway (k : kind) : bool := match k with KAuthentication | KHooks _ => true | KOther => false end.

(** crates/wasi-component-loader/src/extension/collection/gateway.rs:25-30 *)
Record gateway := {
  g_hooks : option pool_config;
  g_filter : option event_filter;
  g_authentication : list pool_config
}.

Inductive started := Started (g : gateway) | TwoHooks | PoolFailed.

(** crates/wasi-component-loader/src/extension/collection/gateway.rs:65-99, the loop of new. [works id]: Pool::new
    succeeds. An index out of the catalog can't be (the ids are from its iteration), it is skipped here. *)
Fixpoint start (works : nat -> bool) (catalog : list extension) (g : gateway) (l : list pool_config) : started :=
  match l with
  | [] => Started g
  | c :: rest =>
    match nth_error catalog (pc_id c) with
    | None => start works catalog g rest
    | Some x =>
      match mf_kind (e_manifest x) with
      | KHooks f =>
        match g_hooks g with
        | Some _ => TwoHooks
        | None =>
          if works (pc_id c) then
            start works catalog
              {| g_hooks := Some c; g_filter := or f (mf_legacy_filter (e_manifest x));
                 g_authentication := g_authentication g |} rest
          else PoolFailed
        end
      | KAuthentication =>
        if works (pc_id c) then
          start works catalog
            {| g_hooks := g_hooks g; g_filter := g_filter g; g_authentication := g_authentication g ++ [c] |} rest
        else PoolFailed
      | KOther => start works catalog g rest
      end
    end
  end.

(** crates/wasi-component-loader/src/extension/collection/gateway.rs:45-103 new. [None]: a panic. *)
Definition gateway_new (works : nat -> bool) (catalog : list extension) (config : list (string * ext_config))
  : option started :=
  match load_config catalog config of_gateway with
  | None => None
  | Some l => Some (start works catalog {| g_hooks := None; g_filter := None; g_authentication := [] |} l)
  end.

(** * Authentication *)

(** Tokens: anonymous, or what an extension gave. *)
Inductive token := TAnonymous | TGiven (t : string).
(** ErrorResponse: its status and its message. *)
Record failure := { f_status : N; f_text : string }.

(** What calling an extension comes to: no instance of it could be had, it trapped, or it answered. *)
Inductive reply := NoInstance | Trapped | Gave (t : token) | Refused (e : failure).

(** crates/engine/error/src/lib.rs:51-53 *)
Definition internal_error : failure := {| f_status := 500; f_text := "Internal extension error" |}.

(** crates/wasi-component-loader/src/extension/runtime/authentication.rs:24-39: the future of a pool. *)
Definition outcome (r : reply) : token + failure :=
  match r with
  | NoInstance | Trapped => inr internal_error
  | Gave t => inl t
  | Refused e => inr e
  end.

(** http::StatusCode::is_client_error *)
Definition client_error (e : failure) : bool := (N.leb 400 (f_status e) && N.ltb (f_status e) 500)%N.

(** crates/wasi-component-loader/src/extension/runtime/authentication.rs:54-63: the match of two results. *)
Definition merge (a b : token + failure) : token + failure :=
  match a, b with
  | inl t, _ => inl t
  | _, inl t => inl t
  | inr e, inr e' => if client_error e then inr e else if client_error e' then inr e' else inr e
  end.

(** crates/wasi-component-loader/src/extension/runtime/authentication.rs:42-67: the results in the order the futures
    complete in. [None]: the unreachable. *)
Definition combine (l : list (token + failure)) : option (token + failure) :=
  match l with
  | [] => None
  | r :: rest => Some (fold_left merge rest r)
  end.

(** crates/wasi-component-loader/src/extension/runtime/authentication.rs:20-23: the pools that are asked. *)
Definition asked (g : gateway) (ids : list nat) : list nat :=
  filter (fun id => existsb (Nat.eqb id) ids) (map pc_id (g_authentication g)).

(** crates/extension-catalog/src/catalog.rs:58-64 get_id_by_config_key *)
Fixpoint id_by_key (id : nat) (key : string) (catalog : list extension) : option nat :=
  match catalog with
  | [] => None
  | x :: rest => if String.eqb (e_key x) key then Some id else id_by_key (S id) key rest
  end.

Definition is_authentication (k : kind) : bool := match k with KAuthentication => true | _ => false end.

Inductive layer_error := UnknownKey (key : string) | NotAuthentication (key : string).

(** crates/federated-server/src/router/mod.rs:198-209, the keys of the configuration. *)
Fixpoint ids_of_keys (catalog : list extension) (keys : list string) : list nat + layer_error :=
  match keys with
  | [] => inl []
  | key :: rest =>
    match id_by_key 0 key catalog with
    | None => inr (UnknownKey key)
    | Some id =>
      match nth_error catalog id with
      | Some x =>
        if is_authentication (mf_kind (e_manifest x)) then
          match ids_of_keys catalog rest with inl l => inl (id :: l) | inr e => inr e end
        else inr (NotAuthentication key)
      | None => inr (UnknownKey key)
      end
    end
  end.

(** crates/federated-server/src/router/mod.rs:212-223, all of them. *)
Fixpoint all_authentication (id : nat) (catalog : list extension) : list nat :=
  match catalog with
  | [] => []
  | x :: rest =>
    if is_authentication (mf_kind (e_manifest x)) then id :: all_authentication (S id) rest
    else all_authentication (S id) rest
  end.

(** crates/gateway-config/src/authentication.rs *)
Inductive behavior := BAnonymous | BDeny.
Record resource := { rs_extensions : option (list string); rs_default : option behavior }.

(** crates/federated-server/src/router/layers/extension.rs:17-24 *)
Record layer := { l_ids : list nat; l_default : option behavior; l_contract : option string }.

(** crates/federated-server/src/router/mod.rs:188-231 build_extension_layer *)
Definition build_layer (catalog : list extension) (r : resource) (default : option behavior) (contract : option string)
  : layer + layer_error :=
  match
    match rs_extensions r with
    | Some keys => ids_of_keys catalog keys
    | None => inl (all_authentication 0 catalog)
    end
  with
  | inr e => inr e
  | inl ids => inl {| l_ids := ids; l_default := or (rs_default r) default; l_contract := contract |}
  end.

(** What happens outside while a request is served: the answer of the on_request hook (a contract key or an error), the
    answers of the extensions, the order they complete in, the status of the graph, and the answer of the on_response
    hook (a status or an error). *)
Record world := {
  w_on_request : option string + failure;
  w_reply : nat -> reply;
  w_order : list nat -> list nat;
  w_next : token -> option string -> N;
  w_on_response : N -> N + string
}.

(** What a request does: extensions asked, the graph reached (with its token and its contract), the on_response hook
    called with a status. *)
Inductive effect := Ask (id : nat) | Reach (t : token) (contract : option string) | Respond (status : N).

(** The response: a status, or the error it is made from. *)
Inductive response := Served (status : N) | Failed (e : failure).

(** crates/federated-server/src/router/layers/extension.rs:110-114 *)
Definition unauthenticated : failure := {| f_status := 401; f_text := "Unauthenticated" |}.

(** crates/federated-server/src/router/layers/extension.rs:108-135: the token or the refusal. [None]: a panic. *)
Definition decide (w : world) (g : gateway) (l : layer) : option (list effect * (token + failure)) :=
  match l_ids l with
  | [] =>
    Some ([], match l_default l with Some BAnonymous | None => inl TAnonymous | Some BDeny => inr unauthenticated end)
  | _ =>
    let order := w_order w (asked g (l_ids l)) in
    match combine (map (fun id => outcome (w_reply w id)) order) with
    | None => None
    | Some r =>
      Some (map Ask (asked g (l_ids l)),
        match r with
        | inl t => inl t
        | inr e => match l_default l with Some BAnonymous => inl TAnonymous | Some BDeny | None => inr e end
        end)
    end
  end.

(** crates/federated-server/src/router/layers/extension.rs:82-181 call. Headers, bodies and formats are not modelled.
    [None]: a panic. *)
Definition call (w : world) (g : gateway) (l : layer) : option (list effect * response) :=
  match w_on_request w with
  | inr e => Some ([], Failed e)
  | inl contract =>
    match decide w g l with
    | None => None
    | Some (effects, inr e) => Some (effects, Failed e)
    | Some (effects, inl t) =>
      let key := or contract (l_contract l) in
      let status := w_next w t key in
      Some (effects ++ [Reach t key; Respond status],
        match w_on_response w status with
        | inl s => Served s
        | inr text => Failed {| f_status := 500; f_text := text |}
        end)
    end
  end.

(** * Events *)

(** An event: its type and its content. Those of extensions come from the guest; the content is [None] when it can't be
    read from its memory. *)
Record event := { ev_type : event_type; ev_data : string }.
Inductive happening := Host (ty : event_type) (data : string) | Guest (data : option string).

(** crates/event-queue/src/lib.rs:145-152 must_keep_event *)
Definition must_keep (f : option event_filter) (ty : event_type) : bool :=
  match f with
  | Some FAll => true
  | Some (FTypes l) => existsb (event_eqb ty) l
  | None => false
  end.

(** crates/event-queue/src/lib.rs:71-131 push_operation, push_subgraph_request, push_http_request and
    push_extension_event, the latter behind crates/grafbase-sdk/src/host_io/event_queue.rs:84-94 send. *)
Definition push (f : option event_filter) (skip : bool) (q : list event) (h : happening) : list event :=
  match h with
  | Host ty data => if must_keep f ty then q ++ [{| ev_type := ty; ev_data := data |}] else q
  | Guest data =>
    if skip then q
    else if must_keep f EExtension then
      match data with Some data => q ++ [{| ev_type := EExtension; ev_data := data |}] | None => q end
    else q
  end.

(** The queue the on_response hook pops its events from, after what happened during a request. *)
Definition queue (g : gateway) (catalog : list extension) (l : list happening) : list event :=
  fold_left (push (g_filter g) (can_skip_events catalog)) l [].
