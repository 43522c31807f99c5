# Design

Target: `grafbase/grafbase` (Rust), read as text under `/repo`. All paths below are relative to `/repo/crates`.

## Layout

`rocq/theories/<Area>/` holds, per area:

* `Model.v` (or files named after a part of the code) – Gallina functions transcribed from the Rust code, each with a comment citing file and lines, and saying what is simplified;
* `Spec.v` – the independent specification the property is stated against (no use of the model's helpers);
* `Proofs.v` and others – lemmas;
* `Properties.v` – the theorems named in `MANIFEST.json`, with a concrete `Example` beside them.

Small areas have model, specification and theorems in one file, under separate headings.

## Trusted base

* Coq 8.16.1's kernel (including `vm_compute`).
* No axioms: `Print Assumptions` answers "Closed under the global context" for every theorem named in `MANIFEST.json`. Section variables (oracles) are generalised: the theorems hold for every value of them.
* The reading of the Rust code recorded in the comments of the model. Nothing was built or executed.
* The behaviour of the crates outside the repository, as described below ("Not modelled").

## Conventions

* A Rust panic, `unreachable!`, failed `assert!`, out-of-bounds index is an explicit `Panic`/`None` outcome in the model, never silently total.
* Machine integers are `Z`/`N` with explicit wrap where the code can wrap (the release profile has no overflow checks).
* External effects (subgraph responses, clocks, stores, hash functions, the file system) are inputs of the model: oracles, event lists, or section variables that get generalised.
* Hashes: a key fed to BLAKE3/SHA-256 is modelled by the byte string fed to the hasher, or by an oracle with the hypothesis that it does not collide on the inputs of the run. Nothing is assumed as an axiom.
* Loops without a bound have fuel; running out of it is an explicit value, and a theorem says when it does not happen.
* Where the full statement is false of the faithful model a theorem `..._refuted` exhibits the witness, and a `..._partial` theorem proves the property under the missing hypothesis.

## Per property

| id | area | model | how it is proved |
|----|------|-------|------------------|
| C01–C03 | Wrapping | `Wrapping(u16)` as `N` with the code's masks and shifts; `Display` | refinement to nested type references over all operation sequences; comparison iff the pointwise order; round trip with an independent parser |
| C04–C07, C37 | Coercion | `coerce_type` & co over an arbitrary schema of recursive input objects; variable definitions | induction on JSON; relational specification of input coercion in both directions; refutations for floats, oneOf null, list defaults, large integers |
| C08, C09 | Limits | `Visitor` over documents with fragments | specification: the fragment-expanded tree and its measures; termination by the fragments not on the stack |
| C10, C38, C39 | Complexity | cost with 64-bit wrap, height with 16-bit wrap | equality with the unbounded cost modulo 2^64; refuted when it does not fit |
| C11, C40 | Shapes | `partition_object_shapes`, index loops on sorted ids | invariants of the in-place splitting loop; loops equal set operations |
| C12 | Modifiers | accumulation, sort, grouping loops, calls of extensions | partition theorem for any sort result; refuted with @skip |
| C13 | Skip | from selection sets to response keys | CollectFields as specification, along paths |
| C14 | Requires | work list closure with fuel | least fixed point; termination for acyclic requirements |
| C15 | ErrorShapes | numbering of shapes, counting sort, two-pointer merge | iff, under the numbering that the builder model establishes |
| C16 | Scheduler | coordinator as a transition system | inductive invariant over all event lists |
| C17, C41 | Mutation | both ordering passes, composed with the scheduler | invariants; exact count of requests |
| C18 | Subscription | `FuturesOrdered` loop | invariant over all schedules |
| C19–C22 | Response | deserialisation of JSON along shapes, null propagation, merging, serialisation | mutual induction; conformance judgement as specification |
| C23, C25–C27, C42 | EntityCache | keys, time to live, stores, batches of entities, root requests | byte-string injectivity; invariants over histories; positional theorem |
| C24, C28–C30 | OpCache | keys, trusted documents, persisted queries, tiers | invariants over histories of several gateways |
| C31, C32 | RateLimit | both limiters, keys | counting arguments over all event lists |
| C33 | Logger | rotation over a file system of inodes; queue in front of it | invariants over histories |
| C34, C43 | Headers | header rules, defaults, extension headers | invariants over rule lists; refutations |
| C35 | GraphRef | parse and print | round trips, exact characterisation |
| C36 | Config | regular expression scanner, substitution, TOML trees | specification by decomposition of the text |
| C44, C45 | Normalizer | `normalize` and `sanitize` over syntax trees | unambiguous printing; stable sorts and closures of fragments; equivalence as specification |
| C46 | Fetch | request key, tasks around `OnceCell` as a transition system | invariant and history invariant over all interleavings |
| C47, C48 | Fetch | retry loop over oracles; settings of a subgraph | loop invariant; case analysis |
| C49 | Checks | tables of a schema, usage, rules over the changes of C50 | validity of operations and use as inductive specifications; decision procedure for the refutations |
| C50–C52 | SchemaDiff | maps of the two documents, list of changes, sort; patch with its binary searches; texts of paths | relation between two documents as specification, exact; grammar |
| C53–C60, C76 | Compose | subgraphs to composed schema: types, fields, arguments, enums, unions, interfaces, roots, emission | what values and data a schema accepts as specification; structural lemmas from groups to lookup |
| C61–C66 | SdlValidation | the crate graphql-schema-validation: both passes over the parsed document | each diagnostic as a predicate of the document, both directions; rules of the specification on merged types, decided by a verified checker for examples; finite values; permutations |
| C67–C72 | Arguments | literals of arguments, defaults, use of variables, variables of a request, what is sent | typing of literals, meaning of literals and values accepted by a type as three separate inductive specifications; induction on literals |
| C73–C75 | Steiner | the search for a tree of the query planner (Greedy FLAC), its runs and reuse | tree, way and weight as separate definitions; invariant of the flow (unique saturated ways, exact feeding sets), ghost distances as for Dijkstra |
| C77 | Plans | from required field sets and rules to plans, response modifiers and their dependencies, run by the Scheduler model | required paths as an inductive relation; every dependency in both directions; runs through C16; witnesses for fields that stay unchecked |
| C78 | Partitions | the graph of the query after the search, splitting of partitions, typenames of the root | nodes and edges as lists, petgraph at its word; any sort; entity types and field definitions not kept |
| C79 | ResponseKeys | the keys of fields in the queries of subgraphs | selection sets as a list instead of a walk over the graph; each field in one of them; interner as a list |
| C80 | Updater | the planner's loop around the search: terminals and weights that requirements add | what a plan needs as a predicate of its nodes and edges; invariant over all rounds, on top of C73–C75; witnesses for panics and endless searches |
| C81 | Websocket | the connection of a client over a websocket: acceptance, the loop, the tasks of operations, the queue of messages | state machine over inputs of scheduler, socket and client; invariant over all runs; what is executed as a function of the events; witnesses where the protocol is not followed |
| C82–C85 | Front | an HTTP request from the layers of the router to the answer: CSRF, hooks, authentication, contract, limiter, formats, batches, timeouts, statuses; preparation around the cache of operations | functions from a request and an arbitrary world to effects and an answer; gate as soundness and completeness; statuses against a table; cache by an invariant over histories |
| C86–C88 | Bind | binding of an operation: selection sets, fields, arguments, directives, fragments, vectors and ids, iteration over fields; choice of the operation; introspection check | nested recursion over selections with fuel for fragments only; runs as a relation; positions and faults as inductive relations on the document; tree read out of the vectors |
| C89–C91 | Outgoing | query sent to a subgraph: selection sets, type conditions per entity, arguments, variables and their names, operation and entities form, variables sent | writers from variables to text; a lexer and parser of GraphQL as the specification; collected fields as an inductive relation; one invariant per piece of text |
| C92–C94 | Views | what is read of the response during execution: representations, field sets for extensions, injected values; authorization of the response | views as one recursion over the store, generic in what is done with objects; trees with hidden values as in Response; projections, injections and refusals as inductive relations |
| C95–C96 | Lookup | the arguments of a @lookup field detected from its key, and what is sent for them | the store of selections with its pushes and resets, ids decoded by a relation; input and output types as relations on JSON values and response trees; end to end with the views of C93 |
| C97–C99 | Contracts | propagation of @inaccessible; decisions of contracts, unreachable types, introspection | propagation as a worklist refining the least set closed under the rules; decisions and what stays visible as inductive relations |
| C100–C102 | Introspection | answers to introspection queries on the visible schema, the schema a client rebuilds; text of default values | answers as an inductive relation on shapes and schema, a client's reading of them, a reader of value texts |
| C103–C105 | SelectionMap | field selection maps: grammar, parsing and printing; binding to a schema; requirements and injections; the arguments written | the grammar as inductive relations on texts; what names resolve to, types of data and values a target takes as inductive relations; composed with the views of C93 |
| C106–C108 | ExtArgs | arguments of extension directives: coercion against the extension's SDL, injection stages, the three views, authorization rules and resolver inputs; URL and JSON templates and how they are rendered | accepted values, types of results and earliest stages as inductive relations, proved equivalent to the code for enough fuel; decoders of percent-encoding and of JSON texts written as independent readers |
| C109 | Supergraph | one field through the composer (`@join__field`), the supergraph writer and the engine's reader; values of `join__Graph`; labels of overrides | which subgraphs serve a field, spelling of graph values and full labels as predicates; the records read are characterised exactly |
| C110 | Sdl | descriptions of the supergraph writer and of the MCP server, string literals | a reader of GraphQL block strings (with BlockStringValue) and of quoted strings; texts compared by their visible characters |
| C111 | Defaults | the walk over default values with its stack and the input objects it has seen, coercion to schema values | a relation that completes default values with the nested ones (least fixpoint); the order of the stack against which input objects contain which, for every choice of the next key |
| C112 | Dedup | the map of shared subscriptions, their tasks, the broadcast channels and their receivers as a transition system, one atomic action per event | an invariant over all interleavings that relates what was sent and read to what the guest gave and when a client came; a bound on tries after all clients left |
| C113 | WaitList | one key of the extension cache: the value, its wait lists, the calls of get, insert and remove as a transition system, one atomic action per event | an invariant over all interleavings about who has a list's receiver; a potential that bounds how many callers are told to compute |
| C114 | Pool | instances with their two flags, the pool's queue, users as small state machines (one call, subscription, old subscription) that call the guest; a log of what is seen | an invariant over all interleavings that relates the flags to the log; ownership by a permutation of idle and held instances |
| C115 | Reload | the schema file with modification times, its poller, the watch channel of configurations and its bridge, the channel of updates, the reloader and the tasks that build engines; the static watcher of limits; the share of operations that are warmed | three invariants over all interleavings (reloader, file, configuration), each relating a stage of the pipeline to the log of updates |
| C116 | Links | the tables made of @link directives (linked schemas, prefixes, imports), names in URLs, and the function that recognises directives by name | the meaning after the specification of @link as relations (what an import brings, what a prefix is, what a directive denotes); tables characterised by membership |
| C117, C118 | Signing | the configuration of signatures on two levels, loading of keys from files, texts and web keys, the table of signers and of clients by subgraph, components and parameters of a signature, and the three ways of sending | what the configuration says as a relation (own section, else the gateway's), what a source contains as a relation; tables characterised by membership; libraries as arbitrary functions |
| C119 | Addresses | the path of a trusted document and of a graph, and the parser of URL paths that they go through (separators, dots, escapes) | percent-decoding as the meaning of a segment; round trips; for all targets an identifier that reaches them |
| C120, C121, C122 | Catalog | the loading of extensions from the disk, their pools and permissions, the layer that authenticates requests (selection, concurrent calls, defaults, hooks), the event queue and its filters at both ends | installed versions and their order as relations; the admission and the refusal of a request, given the order extensions complete in; the events that should be seen as an inductive relation |
| C123 | Requests | the deserializers of GraphQL requests and batches, persisted-query extensions, query strings (form_urlencoded) and the choice between them | what a JSON object or a list of parameters says, as relations; how a client writes requests, percent-encoding included; the parser of JSON is a function from text to trees (it reads what it prints, for the round trip) |
| C124 | Cors | the CORS settings and how they are read, the layer built from them, its answers (tower_http), the CSRF layer | the CORS check and preflight of the Fetch standard as relations; what a configuration permits, as a relation; the matcher of patterns is a function |
| C125 | Lint | the suggestions of the linter for names, with the cutting of names into words (heck), its exceptions, and the warnings for fields | names in capitals, words in camel case and the same letters as relations, for all names |
| C126 | SdlText | strings and descriptions in the schemas for MCP clients | a reader of strings after the GraphQL specification, block strings included; induction on the text and on its lines |

The status of each claim, and what is missing or refuted, is in `MANIFEST.json`.

## Modelled code

Each file's heading lists files and lines. In short (relative to `/repo/crates`): `graphql-wrapping-types/src`; `engine/operation/src/{bind/coercion/variable.rs, bind/operation.rs, validation/*}`; `engine/src/prepare/cached/builder/{shapes,modifiers,mutation_order}*`; `engine/src/prepare/operation_plan/*`; `engine/query-solver/src/post_process/mutation_order.rs` and the merging of fields in `solution_space/builder/operation_fields.rs`; `engine/src/execution/operation/{state,coordinator}.rs`; `engine/src/response/{data,path,value,write,read}`; `engine/src/{engine/cache.rs, prepare/trusted_documents.rs, prepare/mod.rs}`; `engine/src/resolver/graphql/{cache,root_fields,deserialize,federation}`; `engine/src/execution/request/header_rule.rs`; `runtime-local/src/{operation_cache,entity_cache,rate_limiting}`; `rolling-logger`; `wasi-component-loader/src/resources/file_logger.rs`; `graph-ref`; `serde-dynamic-string`; `gateway-config/src/lib.rs` (substitution); `operation-normalizer` (all); `runtime-local/src/fetch/traffic_shaping.rs`; `engine/src/resolver/graphql/{request/execute,context}.rs` (retries); `engine/src/engine/retry_budget.rs`; `engine/schema/src/builder/subgraphs.rs` (settings); `graphql-schema-diff/src` (all); `operation-checks/src` (all but the reading of operations); `graphql-composition/src/{compose,compose/*,subgraphs/field_types.rs,emit_federated_graph*,validate/composite_schemas/post_merge.rs}`; `graphql-schema-validation/src` (all); `engine/operation/src/{bind/coercion/query.rs, bind/mod.rs, model/input_value}`; `engine/src/prepare/cached/query_plan/field/arguments.rs`; `engine/query-solver/src/solve/steiner_tree/{greedy_flac.rs, mod.rs}`; `engine/src/prepare/{operation_plan/builder.rs, cached/query_plan/required_field_set.rs}`; `engine/query-solver/src/post_process/{partition_cycles.rs, root_typename.rs, mutation_order.rs, response_key.rs}`; `engine/query-solver/src/solve/{updater.rs, solver.rs}`, `federated-server/src/router/graphql/ws/accepter.rs`, `engine/src/websocket.rs`, `federated-server/src/router/{mod.rs, layers/csrf.rs, layers/extension.rs, graphql/http.rs}`, `engine/src/execution/request/*`, `engine/src/graphql_over_http/{format,response}.rs`, `engine/error/src/code.rs`, `engine/src/prepare/{mod,with_cache,without_cache}.rs`, `engine/operation/src/{bind/operation,bind/mod,parse/mod,validation/after_binding,model/selection_set}.rs`, `engine/src/resolver/graphql/request/{prepare,types}.rs`, `engine/src/response/read/view/ser.rs`, `engine/src/execution/operation/response_modifier.rs`, parts of `engine/src/resolver/graphql/federation.rs`, `engine/schema/src/builder/graph/directives/composite/injection/auto_detect.rs`, parts of `engine/schema/src/builder/graph/selections.rs` and `engine/src/prepare/cached/query_plan/field/arguments.rs`; `engine/schema/src/builder/graph/directives/common/mod.rs` (`finalize_inaccessible`), `engine/schema/src/builder/mutable.rs` and `wasi-component-loader/src/extension/runtime/contracts.rs`; `engine/src/resolver/introspection/writer.rs`, `engine/schema/src/introspection.rs`, `engine/schema/src/input_value/walker/display.rs` and `get_arg_value_as` in `engine/src/prepare/cached/query_plan/field/arguments.rs`. `engine/field-selection-map/src/{parser,model}.rs` whole; `engine/schema/src/builder/coerce/field_selection_map/{mod,model,target}.rs`, `builder/graph/directives/composite/injection/explicit.rs`, the injections of `builder/graph/selections.rs`, `field_set/union.rs`, `composite/require.rs` lines 49-113; `PlanFieldArgumentsView`, `PlanFieldArgumentsBatchView` and `ArgumentObject` in `engine/src/prepare/cached/query_plan/field/arguments.rs` for injected arguments.

## Not modelled

* The solver but for its search for a tree and the loop around it (the solution space, its reduction to a weighted graph with requirements); the rounding of its times (f64 in the code, exact fractions here); schema building, parsing of documents, HTTP and WebSocket servers, the WASM runtime, telemetry.
* Response: plans of nested objects are only covered for merging (C21, C22) and the batch level (C23), not for conformance (C19, C20); derived fields; the limits of `u16` positions and of arenas.
* Composition: reading subgraphs (`ingest_subgraph`), join directives, validation of keys and of names, extensions, descriptions, tags, deprecations; `@override` only as far as it reports.
* Arguments: selection sets (an operation is its variable definitions and the places with values); the interning of values; names of variables in requests to subgraphs; computing the schema's defaults (they are taken as values of their types).
* Schema comparison: the parser (`cynic-parser`); descriptions, applied directives and the arguments of directive definitions.
* Operation checks: reading operations into numbered selections; messages; more than 57 nested lists; validity leaves out the types of variables and of given values other than enums.
* Schema validation: the parser; values of defaults and arguments of directives, which no check reads.
* serde_json: a JSON text is a tree with the places where reading fails. Numbers of a text are i64, u64 or opaque floats.
* futures, tokio: tasks are interleaved at their await points, `OnceCell` hands its permit over in order; a future that is ready is eventually polled.
* governor: its cell rate algorithm is transcribed from its documentation. Redis: commands are atomic, expiry is exact, clocks agree.
* Floating point in the Redis limiter: only that rounding is monotonic.
* http: the order of iteration over a header map. regex: the classes of the configuration pattern are disjoint, so that a greedy match never backtracks.
* The operating system: what survives a crash of the machine; two processes with the same log path.
* Printing of normal forms by graphql_parser (C45 is about the syntax tree that is printed).
* Text of error messages, spans and locations, except where a property is about them (C35, C36).
* Websockets (C81): reading texts as events, the encoding of messages, payloads, the negotiation of the protocol; that tungstenite sends nothing after a close frame is assumed.
* HTTP (C82–C85): CORS except that it answers OPTIONS, compression, telemetry, MCP besides its flag for mutations, response extensions; what hooks, authentication, contracts, the limiter, the readers of bodies and media types, the parser, solver, planner and executor answer is arbitrary (C82, C83, C85); negative zero and negative NaN as qualities (C84).
* Binding (C86–C88): the parser, locations; whether types intersect (C40) and values coerce (C67–C70) are arbitrary; variables (C70); the vector of arguments (they are kept with their field).
* Query to a subgraph (C89–C91): equivalence of values (a relation that must imply equal values), the binary searches in join records (membership), query modifications (fields are those included), the estimated lengths of buffers, the HTTP request.
* Views (C92–C94): how extensions encode what they are told; arguments of directives and fields besides field sets; the packed indices of parent objects; locations of errors. That requirements are ordered and complete (planner) is a hypothesis.
* Lookup (C95–C96): arguments given by @is; how the entity and its keys are found; keys with 64 fields or more, which panic; that a scalar's output is valid as its input is part of the meaning of `leaf`.
* Contracts (C97–C99): schemas are well-formed (parents and lists of parts agree, indexes exist, and the definitions for introspection have parts); the call of the extension, the encoding of directives as CBOR, parsing of URLs and which subgraphs are GraphQL subgraphs are left out. The order of the hash map of directives is arbitrary.
* Introspection (C100–C102): the builder of response parts (an answer is a tree), how shapes are made from the query (`@skip`, `@include`, merged fields), the binary search by name, the display of floats (a given text); shapes name a field of an introspection type by its name instead of an id. The directives that introspection lists are any list.
* SelectionMap (C103–C105): texts of errors, the lookup of types by binary search (a function from names), subgraph-specific checks of fields; injections are trees rather than ranges of pushed records (with the reset of what was pushed when a first try fails); the list of parents of a batch is a list in the store; data are typed as far as required and have all that is required (no object lacking a field because of a type condition); oneOf input objects only by the number of fields.
* ExtArgs (C106–C108): parsing templates (ramhorns; a template is its list of blocks) and its stack of contexts beyond what `get` of the innermost one finds, index variables; numbers of JSON are texts; what serde_json writes and percent_encoding does is written out from their documentation; parsing and binding of field sets and input value sets are functions given from outside; errors are not told apart; `is_list` of cynic_parser_deser is read as: any list wrapper.
* Supergraph (C109): types and field sets are abstract, with functions printing and parsing them assumed inverse on what is written; lexing and parsing of the SDL, errors other than their presence, non-ASCII upper case; which subgraphs a parent type has; how the engine chooses among duplicated `join__Graph` values (names are the identity of a graph); diagnostics about anything but overrides and external fields.
* Sdl (C110): how descriptions are read from subgraphs and merged; the reader is that of the GraphQL specification (October 2021), not the parser the gateway uses; Unicode white space is a fixed list; scalars are written without namespaces and directives.
* Defaults (C111): the text and span of errors; the order of the keys of maps in custom scalars (sorted by the engine, kept as written here); resolving the names of types (a type that does not exist is an earlier error); values of composite schemas' own coercions (field selection maps, extension arguments: C104, C107).
* Dedup (C112): how the key is made (by the guest); panics of a task and traps of the guest (an error is an event); that instances are dropped or recycled; tokio's broadcast channel is modelled by its documentation (a send without receivers fails, receivers that are more than the capacity behind skip to the oldest kept message), and its capacity is a parameter.
* WaitList (C113): several keys (they share only the evictions of a full cache, which may happen at any time in the model); how long time outs are (any caller may time out at any time while it waits); the legacy cache's own expiry (crates/wasi-component-loader/src/cache.rs, whose wait lists work alike); DashMap, mpsc and oneshot channels are modelled by their documentation.
* Pool (C114): how calls work inside wasmtime (a call returns, traps or is dropped; that a trapped or abandoned guest is never entered again is the hypothesis `credible`); deadpool is modelled by its documentation (first in first out, no time outs, a permit per user); instances that can't be made are an event (`GetFails`); contracts keep no instance.
* Reload (C115): graphs that are fetched from object storage or given as text; extensions loaded with a graph; how an engine is built (it succeeds or fails by choice); file systems with coarse modification times (every write has its own); how notify finds changes of the configuration file; the websockets and requests that still use an older engine.
* Links (C116): parsing of URLs (path segments are given), diagnostics of wrong @links, extensions registered for links, @composeDirective, what is done with a directive once it is recognised (C57, C58), renaming of @link itself.
* Signing (C117, C118): cryptography, base64, PEM, JSON and certificates (arbitrary functions); the text of the two headers a signature is written to, and that httpsig resolves components as RFC 9421 says (the model's `component_value`); that httpsig refuses repeated components is a hypothesis of C117_several_values; the text of errors; deduplication of requests in flight (C46); how many connections a client keeps.
* Addresses (C119): the url crate (its `set_path` is modelled after the URL standard, for http and https); redirects and access control of the object storage; whether it decodes escaped slashes; documents of Hive (their identifiers are given to a library); what is done with the document (C24, C28, C29).
* Catalog (C120, C121, C122): pre-release and build parts of versions; what version requirements accept (a function); failures of canonicalize; pools (C114) and what happens in guests (answers are oracles); headers, bodies and formats of responses; the public metadata endpoints; guests that ignore the flag for events (those built with another SDK).
* Requests (C123): the JSON and CBOR parsers; sequences in the place of structs (derived deserializers accept them, the model refuses them); invalid UTF-8 in query strings (replaced in the code, kept here); the order of variables (a sorted map in the code); the checks of the content type and method (elsewhere).
* Cors (C124): tower_http is modelled after its documentation and known source (which headers it adds when, and what it refuses at the start), not from files in /repo; fast_glob is a function (the IPv6 witnesses assume that a class in brackets stands for one character, with an instance given); header lists are lists, not text with commas; Vary; the url crate.
* Lint (C125): heck is modelled from its known source, for ASCII (names of GraphQL are ASCII); warnings about deprecations without a reason, prefixes and suffixes of types, texts of the warnings, the traversal of the document.
* SdlText (C126): the white space of Unicode that trim_end drops as well; the rest of the schema writer (types, fields, arguments, sizes); the reader knows only the fixed form of Unicode escapes.
