{"id": "C01", "title": "Packed type wrappers behave exactly like nested list/non-null types", "statement": "A GraphQL type modifier built by any sequence of 'wrap in list', 'wrap in non-null list', 'make non-null', 'remove the outer list' and 'remove the outer non-null' reads back (is it a list, is it non-null, the list of levels) exactly as the nested type it denotes, as long as it has at most ten list levels; building an eleventh level is refused (panic) instead of silently corrupting the type.", "quantifier": "every sequence of builder operations of any length, and every one of the reachable packed values", "why_tests_cant": "the packed representation is 16 bits with three overlapping fields; a test checks a handful of nestings, while the claim is about every operation sequence", "anchors": [{"file": "crates/graphql-wrapping-types/src/lib.rs", "symbols": ["Wrapping::list", "Wrapping::list_non_null", "Wrapping::non_null", "Wrapping::without_list", "Wrapping::without_non_null", "Wrapping::is_non_null", "Wrapping::is_list", "Wrapping::set_list_length"]}, {"file": "crates/graphql-wrapping-types/src/mutable.rs", "symbols": ["MutableWrapping::pop_outermost_list_wrapping"]}]}
{"id": "C02", "title": "Lenience check between types is the subtyping rule of the GraphQL specification", "statement": "The engine considers a position's type 'equal or more lenient' than another exactly when both have the same number of list levels and every level (inner type and every list) that is required by the lenient type is also required by the stricter one; the relation is reflexive, transitive and antisymmetric.", "quantifier": "every pair of type modifiers", "why_tests_cant": "needs all pairs of nestings, not a table of examples", "anchors": [{"file": "crates/graphql-wrapping-types/src/lib.rs", "symbols": ["Wrapping::is_equal_or_more_lenient_than"]}]}
{"id": "C03", "title": "The printed form of a type modifier determines it", "statement": "Printing a type name with its modifiers ('[[Name!]]!') is injective and parsing the brackets and bangs back yields the same modifiers, for every valid name.", "quantifier": "every name without bracket or bang characters and every type modifier", "why_tests_cant": "an injectivity claim over an infinite set of names and all nestings", "anchors": [{"file": "crates/graphql-wrapping-types/src/lib.rs", "symbols": ["Wrapping::type_display", "WrappingDisplay"]}]}
{"id": "C04", "title": "Int variables only carry 32-bit values equal to what the client sent", "statement": "If a JSON number is accepted for a variable of type Int, then the value handed to resolvers is mathematically equal to the number the client sent and lies in the signed 32-bit range; every JSON integer in that range is accepted.", "quantifier": "every JSON integer and every finite JSON float", "why_tests_cant": "the set of JSON numbers is unbounded and the failure sits at one edge of the range", "anchors": [{"file": "crates/engine/operation/src/bind/coercion/variable.rs", "symbols": ["coerce_scalar", "can_coerce_to_int"]}]}
{"id": "C05", "title": "Coerced variables conform to their declared type", "statement": "Whatever JSON the client sends, if coercion of a variable against a declared input type (scalars, enums, input objects, oneOf objects, lists and non-null, nested to any depth) succeeds, the resulting value conforms to that type: no null at a required position, only accessible enum values, only declared and accessible input fields, all required input fields present.", "quantifier": "every JSON value and every input schema, of any nesting depth", "why_tests_cant": "needs induction over arbitrary JSON trees against arbitrary recursive input types", "anchors": [{"file": "crates/engine/operation/src/bind/coercion/variable.rs", "symbols": ["coerce_variable", "coerce_type", "coerce_named_type", "coerce_input_objet", "coerce_enum"]}]}
{"id": "C06", "title": "OneOf input objects carry exactly one non-null field", "statement": "A value accepted for an input object declared @oneOf has exactly one field and its value is not null.", "quantifier": "every JSON object and every @oneOf input type", "why_tests_cant": "quantifies over all objects; tests cover zero and two keys only", "anchors": [{"file": "crates/engine/operation/src/bind/coercion/variable.rs", "symbols": ["coerce_input_objet"]}, {"file": "crates/engine/operation/src/bind/coercion/query.rs", "symbols": ["coerce_input_object"]}]}
{"id": "C07", "title": "A variable keeps its declared type when it has a non-null default", "statement": "Declaring a non-null default value for a variable changes its type at most by making the outermost level required: a default never changes how many list levels the variable accepts, and every type a document can spell is processed without crashing the gateway.", "quantifier": "every variable type expression (any number of list levels) and every default", "why_tests_cant": "nesting depth is unbounded", "anchors": [{"file": "crates/engine/operation/src/bind/operation.rs", "symbols": ["bind_variable_definitions", "convert_type"]}, {"file": "crates/graphql-wrapping-types/src/lib.rs", "symbols": ["Wrapping::list_non_null", "Wrapping::set_list_length"]}]}
{"id": "C08", "title": "Operation limits are enforced on the fully expanded query", "statement": "A document is accepted by the depth, root field, alias and complexity limits exactly when the query obtained by expanding every fragment spread in place is within those limits; splitting a query into fragments never hides anything from the limits.", "quantifier": "every document: any number of fragments, any nesting, any sharing between fragments", "why_tests_cant": "fragment graphs are unbounded; tests use one or two fragments", "anchors": [{"file": "crates/engine/operation/src/validation/after_parsing.rs", "symbols": ["validate", "Visitor::visit"]}]}
{"id": "C09", "title": "Limit checking terminates on every document and rejects fragment cycles", "statement": "Checking the limits of a document whose fragments refer to each other in a cycle reachable from the operation returns an error instead of looping, and a document without such a cycle is never reported as cyclic.", "quantifier": "every fragment reference graph, cyclic or not", "why_tests_cant": "termination over all graphs", "anchors": [{"file": "crates/engine/operation/src/validation/after_parsing.rs", "symbols": ["Visitor::visit"]}]}
{"id": "C10", "title": "The complexity limit bounds the real cost", "statement": "In enforce mode an operation is executed only if its cost, computed in unbounded integers from the @cost and @listSize annotations and the argument values, is at most the configured limit.", "quantifier": "every selection tree, annotation, argument value and limit", "why_tests_cant": "the counter-example needs products that exceed 64 bits", "anchors": [{"file": "crates/engine/operation/src/validation/complexity.rs", "symbols": ["compute_and_validate_complexity", "field_complexity", "calculate_child_count"]}]}
{"id": "C100", "title": "Introspection shows exactly the visible schema", "statement": "Every introspection query is answered as section 4 of the GraphQL specification demands for the schema without its inaccessible parts: fields in order, wrappers of types, kinds, deprecations, arguments, names that do not exist or are inaccessible lead to null. Two schemas that differ only in inaccessible parts give the same answer to every valid query. The standard introspection query gives a client exactly the visible schema, if it asks for as many levels of ofType as the types have (21 levels suffice for all schemas).", "quantifier": "for all schemas with distinct type names whose visible parts and root types refer to visible types, all selections, variables and depths", "why_tests_cant": "The answer depends on the shape of the query and on hidden parts anywhere in the schema; that nothing hidden leaks is about pairs of schemas and all queries.", "anchors": [{"file": "crates/engine/src/resolver/introspection/writer.rs", "symbols": ["write", "__schema", "__type", "__type_inner", "__type_list_wrapping", "__type_required_wrapping", "__type_fields", "__type_interfaces", "__type_possible_types", "__field", "__input_value", "__directive_def", "__enum_value"]}, {"file": "crates/engine/schema/src/introspection.rs", "symbols": ["meta_fields"]}]}
{"id": "C101", "title": "Answering introspection does not panic", "statement": "For every introspection query that is valid (fields that exist, selections for objects) and has no includeDeprecated argument that is null, the introspection resolver writes an answer: no lookup of a field, no shape and no wrapping is missing.", "quantifier": "for all schemas with distinct type names whose visible parts and root types refer to visible types, all valid queries and variables", "why_tests_cant": "The writer indexes tables and unwraps shapes and wrappings at every level; queries nest without bound.", "anchors": [{"file": "crates/engine/src/resolver/introspection/writer.rs", "symbols": ["object", "__type_list_wrapping", "__type_required_wrapping"]}, {"file": "crates/engine/src/prepare/cached/query_plan/field/arguments.rs", "symbols": ["get_arg_value_as"]}]}
{"id": "C102", "title": "Default values shown by introspection read back as the value", "statement": "The text of a default value, read by the grammar of GraphQL, is the value: integers, names, lists, objects in order, booleans, null, and strings; a string reads back exactly if it has no control characters other than those of a code below 10, line feed and carriage return.", "quantifier": "for all values with valid names, of any depth", "why_tests_cant": "Escaping and nesting compose; each character class of a string behaves differently and a test samples few of them.", "anchors": [{"file": "crates/engine/schema/src/input_value/walker/display.rs", "symbols": ["write_quoted", "write_list", "write_object"]}]}
{"id": "C103", "title": "Field selection maps are read by their grammar and read back when printed", "statement": "A text is read as a field selection map if and only if it spells one by the grammar (alternatives, paths with type conditions, objects, lists, \".\", white space between tokens), and it is read as what it spells; no text spells two maps. A map that is printed is read back as itself, so any map that was read survives printing.", "quantifier": "for all texts and all maps, of any depth", "why_tests_cant": "The parser backtracks (optional values, separators, suffixes of paths); that it never gives up on a valid text or stops early depends on all continuations of all texts.", "anchors": [{"file": "crates/engine/field-selection-map/src/parser.rs", "symbols": ["parse", "selected_value", "selected_value_entry", "selected_value_entry_with_path", "selected_object_value", "selected_object_field", "selected_list_value", "path", "path_segment", "name", "ws"]}, {"file": "crates/engine/field-selection-map/src/model.rs", "symbols": ["SelectedValue", "SelectedValueEntry", "PathSegment", "SelectedObjectField"]}]}
{"id": "C104", "title": "Accepted field selection maps name what they say and give values of the target", "statement": "A field selection map that is accepted for an argument is bound to the fields its text names, each in the type reached (type conditions included), to the targets of those names and, for targets not named, to their defaults; any path that can be followed is accepted. Made of data of the source type, its value is one the target takes: scalars of its type, lists of its depth, no null where it is required, input objects with every required field and each field once. This last part needs conditions the binding does not check: paths through required objects only, objects of objects and lists of lists, no defaults in input objects of a batch.", "quantifier": "for all schemas, maps of any depth, targets and response data of the types required", "why_tests_cant": "Binding and evaluation are in different crates and at different times; that a map accepted when the schema is built never yields a value of another type depends on all maps, schemas and data.", "anchors": [{"file": "crates/engine/schema/src/builder/coerce/field_selection_map/mod.rs", "symbols": ["bind_value", "bind_input_object", "bind_selected_value", "bind_selected_value_entry", "bind_path", "bind_type_condition", "bind_selected_object_value", "bind_selected_object_field", "bind_selected_list_value", "ensure_type_compatibility"]}, {"file": "crates/engine/schema/src/builder/coerce/field_selection_map/target.rs", "symbols": ["TargetField"]}]}
{"id": "C105", "title": "What field selection maps require is exactly what they select, and suffices", "statement": "The field set required for the arguments of a field is ordered, has exactly the paths its injections select, and any requirements having it let every injection find its fields. Once what is required is there, of its type, every argument is written: no error, no panic, no object where a scalar is expected. A map understood both for one parent and for a batch selects nothing, so the order of trying them does not matter.", "quantifier": "for all schemas, lists of arguments with maps of any depth, requirements that have the field set, and stores of responses of the types required", "why_tests_cant": "Field sets are unions of sorted trees and injections look fields up by advancing in sorted lists: one misplaced or missing item makes a lookup fail only for some combinations of fields.", "anchors": [{"file": "crates/engine/schema/src/builder/graph/directives/composite/injection/explicit.rs", "symbols": ["create_requirements_and_injections", "create_requirements_and_injection_for_input_object", "create_requirements_and_injection_for_selected_value", "prepend_requirements_and_injection_with_path", "create_requirements_and_injection_for_selected_object"]}, {"file": "crates/engine/schema/src/builder/graph/selections.rs", "symbols": ["push_key_value_injections", "order_key", "insert_field"]}, {"file": "crates/engine/schema/src/field_set/union.rs", "symbols": ["union"]}, {"file": "crates/engine/schema/src/builder/graph/directives/composite/require.rs", "symbols": ["ingest_field"]}, {"file": "crates/engine/src/prepare/cached/query_plan/field/arguments.rs", "symbols": ["ArgumentObject"]}]}
{"id": "C106", "title": "Templates of extensions put values where they are written and nowhere else", "statement": "The text made from a template is its literal parts with, in the place of every variable, the value the variable refers to, escaped as the template says: for URLs, percent-encoded so that decoding gives the value back and no delimiter of a URL comes from a value; for JSON, a text that reads back as the value. The values can be recovered from the text. Sections are written once per item, for what is there. This fails where the escaping is asked away, and where a JSON template puts a variable between quotes.", "quantifier": "for all templates, all JSON arguments of a field and all bytes in strings", "why_tests_cant": "An escape can be undone by one unescaped byte, in a context given by the rest of the template; the property is about all byte strings in all contexts.", "anchors": [{"file": "crates/engine/src/prepare/cached/extension/template.rs", "symbols": ["JsonContent", "urlencode", "render_escaped", "render_unescaped", "render_section", "render_field_section"]}]}
{"id": "C107", "title": "Arguments of extension directives are accepted exactly when they are of their types", "statement": "The arguments of an extension directive are accepted exactly when no name is given twice or unknown and each is given with a value of its type or, when not given, has a default value of its type or is not required; what is stored is the value written (a single value standing for lists of one, defaults of input objects filled in), with its fields in the order of the definition, and it is of the declared type. Known exceptions: null for a nullable list, null in a oneOf, floats beyond the range of Int, defaults that need themselves.", "quantifier": "for all SDLs of extensions (input objects, oneOf, enums, scalars, special scalars, lists of any depth), definitions of arguments and values", "why_tests_cant": "Coercion is recursive over types and values with defaults inside defaults; which combination is wrongly accepted or refused is a statement about all of them.", "anchors": [{"file": "crates/engine/schema/src/builder/coerce/extension.rs", "symbols": ["coerce_extension_directive_arguments", "coerce_argument", "coerce_input_value", "coerce_type_value", "coerce_named_type_value", "coerce_input_objet_value", "coerce_scalar_value", "ingest_arbitrary_value"]}, {"file": "crates/engine/schema/src/builder/coerce/input_value_set.rs", "symbols": ["coerce_input_value_set"]}]}
{"id": "C108", "title": "Every argument of an extension directive is delivered once, when it is known", "statement": "The stage recorded for an argument is the earliest at which all it refers to is known (schema, arguments of the field, response), and the fields required of the response are exactly those its field sets name. No view of the arguments meets a value that is not known yet. The resolver of a field and an authorization directive on a field get every argument exactly once over the calls, with its value. On types this needs that no argument depends on the arguments of a field: there the engine panics or leaves the argument out.", "quantifier": "for all arguments, values of any depth with injections anywhere, and sites of the directive", "why_tests_cant": "The stage is computed by a mutable maximum in one crate and relied on by unreachable! in three views in another crate; a missed raise shows only for values with that shape.", "anchors": [{"file": "crates/engine/schema/src/extension/argument.rs", "symbols": ["InjectionStage"]}, {"file": "crates/engine/schema/src/extension/mod.rs", "symbols": ["max_arguments_stage"]}, {"file": "crates/engine/src/prepare/cached/extension/query.rs", "symbols": ["ExtensionInputValueQueryView"]}, {"file": "crates/engine/src/prepare/cached/extension/response.rs", "symbols": ["ExtensionInputValueResponseObjectView"]}, {"file": "crates/engine/src/prepare/cached/builder/modifiers.rs", "symbols": ["max_arguments_stage"]}]}
{"id": "C109", "title": "The supergraph says where a field can be resolved", "statement": "After composition, writing of the supergraph and reading by the engine, a field is resolvable in exactly the subgraphs that define it without leaving it to others (@external outside of keys) and from which no other subgraph took it over entirely (@override without a label or with percent(100)); the types, @requires and @provides the engine keeps are those of the definitions that stay.", "quantifier": "All lists of subgraph names with distinct join__Graph values, all lists of definitions of a field in distinct subgraphs of its parent, all types and field sets, all overrides and labels.", "why_tests_cant": "The writer drops directives it takes for redundant or replaced and the reader fills in what is absent; that the two agree for every combination of overrides, labels, external fields, keys and parents needs a proof over all of them. Snapshot tests of either side see only the text.", "anchors": [{"file": "crates/graphql-composition/src/compose/object.rs", "symbols": ["ingest_join_field_directives"]}, {"file": "crates/graphql-composition/src/emit_federated_graph/directive.rs", "symbols": ["transform_join_field_directive"]}, {"file": "crates/graphql-composition/src/emit_federated_graph.rs", "symbols": ["join_graph_enum_variant_name"]}, {"file": "crates/graphql-composition/src/federated_graph/render_sdl/render_federated_sdl.rs", "symbols": ["write_field_directives"]}, {"file": "crates/graphql-composition/src/federated_graph/render_sdl/directive.rs", "symbols": ["render_join_field_directive"]}, {"file": "crates/graphql-composition/src/compose/validate.rs", "symbols": ["override_source_has_override"]}, {"file": "crates/engine/schema/src/builder/graph/directives/federation.rs", "symbols": ["ingest_field_federation_directives"]}]}
{"id": "C11", "title": "Each concrete type gets exactly the fields selected for it", "statement": "When a selection set on an interface or union contains fragments with arbitrary type conditions, the response shape used for an object of concrete type T contains exactly the fields whose type condition admits T, and every possible type belongs to exactly one shape.", "quantifier": "every set of possible types and every list of type conditions", "why_tests_cant": "the partition algorithm mutates overlapping partitions in place; tests sample a few configurations", "anchors": [{"file": "crates/engine/src/prepare/cached/builder/shapes/partition.rs", "symbols": ["partition_object_shapes", "split_into_partitions", "extract_intersection", "is_superset_of_output_possible_types"]}, {"file": "crates/engine/src/prepare/cached/builder/shapes/mod.rs", "symbols": ["compute_possible_types", "compute_object_shape_partitions"]}]}
{"id": "C110", "title": "Descriptions and strings of the written SDL are read back", "statement": "A description written as a block string in the supergraph, or by the MCP server, ends where the writer ends it, so that the rest of the document is read as it was written; read back it has the same visible characters in the same order, and a tidy description is unchanged. A string literal is read back as the string it was written from.", "quantifier": "All descriptions and strings (lists of Unicode scalar values), all indentations of spaces, all texts that may follow.", "why_tests_cant": "Block strings are cleaned twice, by lines on writing and by the common indentation on reading, and quotes and backslashes mean different things in the two kinds of strings; examples do not show that no text of a description reaches into the definitions after it.", "anchors": [{"file": "crates/graphql-composition/src/federated_graph/render_sdl/display_utils.rs", "symbols": ["Description", "display_graphql_string_literal"]}, {"file": "crates/graphql-composition/src/federated_graph/render_sdl/render_federated_sdl.rs", "symbols": ["render_federated_sdl"]}, {"file": "crates/mcp/src/tools/sdl/buffer.rs", "symbols": ["write_description"]}]}
{"id": "C111", "title": "Default values of inputs do not depend on the order in which they are found", "statement": "When the schema is built, each default value of an argument or input field is stored as what was written, coerced to its type and completed with the default values of the input fields it leaves out, however deep; the schema is refused exactly when some default value is not a value of its type; neither depends on the order in which the hash map yields the default values. Whatever is stored is a value of its type: required fields are present, integers fit in 32 bits, enum values exist.", "quantifier": "All schemas of input objects, arguments, lists, enums and scalars, all default values, all iteration orders of the hash map.", "why_tests_cant": "The default values are taken from a hash map and nested ones must be coerced first, by a depth-first walk that marks input objects when it enters them; whether a nested default value is ready depends on where the walk began, which tests of one schema in one order do not vary.", "anchors": [{"file": "crates/engine/schema/src/builder/graph/definitions.rs", "symbols": ["add_default_values", "ingest_input_object"]}, {"file": "crates/engine/schema/src/builder/coerce/schema.rs", "symbols": ["coerce_input_value", "coerce_type_value", "coerce_input_object_value", "coerce_scalar_value", "ingest_arbitrary_value"]}, {"file": "crates/engine/schema/src/builder/coerce/mod.rs", "symbols": ["can_coerce_to_int"]}]}
{"id": "C112", "title": "Clients that share a subscription of an extension get all of it", "statement": "Clients whose subscription has the same key share one stream of the extension. Under every interleaving of clients that come, read and leave with the tasks that call the guest: a client is given, in order and once, everything the guest gives after the client came (and what was not yet passed on then), misses some only if it is told so and at least as many as the channel keeps came after these, and its stream ends exactly after that; it never waits for a subscription that is over; a client reads a subscription of its key; two clients of a key share the subscription of the first until its entry is removed, and at most one per key is open; when no client is left at most two more items are tried.", "quantifier": "All interleavings of any length, any number of clients, keys, tasks, batches, and any capacity of the channels.", "why_tests_cant": "The defects are races between a failed send, a new subscription and the removal of the map entry, in windows of a few instructions between two tasks; tests do not schedule them.", "anchors": [{"file": "crates/wasi-component-loader/src/extension/runtime/resolver/subscription/dedup.rs", "symbols": ["DeduplicatedSubscription", "resolve", "client_registrations_closed", "stream_lag_error"]}, {"file": "crates/wasi-component-loader/src/extension/runtime/subscription/dedup.rs", "symbols": ["DeduplicatedSubscription", "registerations_closed"]}, {"file": "crates/wasi-component-loader/src/extension/collection/engine.rs", "symbols": ["Subscriptions", "subscriptions"]}]}
{"id": "C113", "title": "Callers of the extension cache wait for the one that computes a missing value", "statement": "When a value is missing from the cache of an extension, one caller is told to compute it and the others wait. Under every interleaving of calls of get, insert and remove for a key, with time outs, dropped calls and evictions at any time: whatever a caller is given was inserted; the number of callers told to compute is at most one more than the number of inserts, removals and time outs, and until the first of these nobody that waits comes back without a value; who comes back without a value though it waited timed out, or since it came the wait list was taken by an insert, dropped by a removal, or dropped by another caller; who waits when an insert takes the list gets the value of this insert, unless it times out or is dropped; who waits either is on the list of the key, or an insert is about to serve it, or it is about to return.", "quantifier": "All interleavings of any length, any number of callers, inserts and removals, any capacity of the lists.", "why_tests_cant": "The defects are races between a look at the cache, a look at the wait list and the last try_recv of an insert; tests await one call after another.", "anchors": [{"file": "crates/wasi-component-loader/src/resources/cache.rs", "symbols": ["CacheInner", "get_or_create_wait_list", "insert", "remove"]}, {"file": "crates/wasi-component-loader/src/cache.rs", "symbols": ["get_or_create_wait_list"]}]}
{"id": "C114", "title": "Instances of an extension that the pool hands out are usable and not shared", "statement": "Under every interleaving of requests, subscriptions and subscriptions of older extensions that take instances of an extension from its pool, call the guest (each call returns, traps or is dropped half way) and give instances back or are dropped: an instance is handed out only if all calls of it so far have returned and its guest has no subscription that was made and not dropped; it is handed out again only after who had it gave it back; there are at most as many instances as the size of the pool; an instance is destroyed only if a call of it trapped or was dropped, or it was used for a subscription; a subscription reports at most one trap of the guest and ends.", "quantifier": "All interleavings of any length, any number of users and instances, any size of the pool, any outcome of any call.", "why_tests_cant": "Whether an instance is poisoned depends on where a future is dropped and which of two flags the last call left; tests neither cancel requests in each await nor make guests trap in each call.", "anchors": [{"file": "crates/wasi-component-loader/src/extension/pool.rs", "symbols": ["wasmsafe", "recycle", "poisoned", "recyclable", "ExtensionGuard"]}, {"file": "crates/wasi-component-loader/src/extension/runtime/resolver/subscription/unique.rs", "symbols": ["UniqueSubscription", "drop_subscription"]}, {"file": "crates/wasi-component-loader/src/extension/runtime/resolver/mod.rs", "symbols": ["create_subscription", "recyclable"]}, {"file": "crates/wasi-component-loader/src/extension/runtime/subscription/unique.rs", "symbols": ["UniqueSubscription", "resolve_subscription"]}]}
{"id": "C115", "title": "The gateway serves the schema and configuration it was last given", "statement": "Under every interleaving of edits of the schema file and of the configuration, of the task that polls the file, of the one that passes configurations on, of the reloader and of the tasks that build engines: an engine that is served has a schema together with the configuration that was current with it; when tasks that are given up stop at once, an engine is served only for the last schema and configuration the reloader was told; at most one engine is built that was not given up; and once all edits have been looked at, all updates received and no engine is built, the engine that is served has the schema of the file and the current configuration, as long as no engine failed to be built. Limits of rates follow the file of the configuration, and the given share of the cached operations is warmed for the new engine.", "quantifier": "All interleavings of any length, any number of edits, any capacity of the channel of updates, any outcome of building engines and of reading the file.", "why_tests_cant": "What is served depends on the order in which a file is read and its time looked at, channels are filled and tasks are given up; tests change one thing once and wait.", "anchors": [{"file": "crates/federated-server/src/engine/reloader.rs", "symbols": ["EngineReloader", "extract_operations_to_warm", "build_engine"]}, {"file": "crates/federated-server/src/graph/loader/schema_file.rs", "symbols": ["SchemaFileGraphUpdater", "schema_fingerprint"]}, {"file": "crates/federated-server/src/graph/loader/mod.rs", "symbols": ["start_producer"]}, {"file": "crates/federated-server/src/serve/mod.rs", "symbols": ["spawn_config_reloader"]}, {"file": "crates/federated-server/src/hot_reload.rs", "symbols": ["ConfigWatcher", "WATCHER"]}]}
{"id": "C116", "title": "Directives of subgraphs mean what their @links say", "statement": "For every subgraph with any @link directives, any imports with and without renaming and any prefixes: a directive that is imported is recognised under the name it is imported as, and is the directive of the linked schema; a directive with the prefix of a linked schema (the `as` argument, or the name in the URL) is the directive of this schema; directives of GraphQL are known without import, those of federation only if its second version is not linked; a directive is recognised as one of federation, composite schemas or GraphQL only for one of these reasons; and a directive the subgraph defines itself is recognised as its own.", "quantifier": "All lists of links, URLs, imports, names of directives and of defined directives.", "why_tests_cant": "Names can be imported, renamed, prefixed, defined by the subgraph and known by default at once, and prefixes are split off before it is known whether they are prefixes; tests link one schema with one of these forms. What is recognised decides which access control is composed.", "anchors": [{"file": "crates/graphql-composition/src/ingest_subgraph/directives/match_name.rs", "symbols": ["match_directive_name", "match_directive_name_inner", "match_federation_directive_by_original_name", "match_composite_schemas_directive_by_original_name"]}, {"file": "crates/graphql-composition/src/ingest_subgraph/schema_definitions/link.rs", "symbols": ["ingest_link_directive"]}, {"file": "crates/graphql-composition/src/subgraphs/linked_schemas.rs", "symbols": ["push_linked_schema", "push_linked_definition", "final_name", "namespace"]}, {"file": "crates/graphql-composition/src/subgraphs/directives/link.rs", "symbols": ["parse_link_url", "is_valid_version"]}, {"file": "crates/graphql-composition/src/subgraphs/top.rs", "symbols": ["FederationSpec", "from_url"]}]}
{"id": "C117", "title": "Requests to subgraphs are signed as configured", "statement": "For every configuration of message signatures, of the gateway and of its subgraphs: a request to a subgraph over HTTP is sent unchanged, with a signature exactly when the section of the subgraph, or the section of the gateway where that one is silent, enables it. The signature is made with the configured key, which is one for the configured algorithm, covers exactly the headers of the request that are neither excluded nor of the connection, and the configured derived components (the request target by default), and has the configured identifier, expiry and nonce. The gateway starts exactly if every key that is needed can be loaded. Headers that are not in the list of included headers are not covered, the body is protected, subscriptions are signed too, and no key makes the gateway panic.", "quantifier": "All configurations, schemas, files, keys, requests and times; all behaviours of the libraries that decode keys and sign.", "why_tests_cant": "Settings are merged one by one from two levels with defaults at a third place; tests sign with one level and look at one request. What is missing from a signature is not visible in a request that is verified.", "anchors": [{"file": "crates/runtime-local/src/fetch/signing.rs", "symbols": ["RequestSigner", "generate_subgraph_signing_parameters", "from_config", "httpsig_params", "should_include_header", "merge_config", "load_from", "from_file", "from_string", "parse_jwk", "parse_ed25519", "HOP_BY_HOP_HEADERS"]}, {"file": "crates/runtime-local/src/fetch.rs", "symbols": ["NativeFetcher", "execute", "graphql_over_sse_stream", "graphql_over_websocket_stream"]}, {"file": "crates/gateway-config/src/message_signatures.rs", "symbols": ["MessageSignaturesConfig", "MessageSigningKey", "MessageSigningAlgorithm"]}]}
{"id": "C118", "title": "Requests to a subgraph are sent with the client its TLS settings describe", "statement": "For every configuration: a request to a subgraph over HTTP is sent with a client that trusts the root certificates of the subgraph (one, or a bundle), presents its identity and accepts invalid certificates if it says so; a subgraph without such settings gets the common client, and never the client of another subgraph. The gateway starts exactly if every certificate that is named for a subgraph of the schema can be read. Subscriptions are sent with the same client.", "quantifier": "All configurations, schemas, files and requests.", "why_tests_cant": "Clients are kept in a map by identifiers of subgraphs while the configuration has names, and each way of sending picks its client itself; tests use one subgraph and one request over HTTP.", "anchors": [{"file": "crates/runtime-local/src/fetch.rs", "symbols": ["generate_dedicated_http_clients", "client_builder", "NativeFetcherInner", "graphql_over_sse_stream"]}]}
{"id": "C119", "title": "A trusted document is looked up in the branch of the gateway under the name of the client", "statement": "For every branch, name of a client and identifier of a document, as they come with a request: the address that is read in the object storage is that of the document with this identifier of this client in the branch of the gateway (its path consists, after percent-decoding, of exactly these names), and different clients and identifiers have different addresses. No request can make the gateway execute a document of another client or another branch. The address of a graph is that of its slug, branch and version, for every name of a branch.", "quantifier": "All branches, names and identifiers, as sequences of bytes.", "why_tests_cant": "Names are put into a path that is then parsed as a URL path, which resolves dots, escaped dots and backslashes and removes line ends; tests look up a plain name and one with a space.", "anchors": [{"file": "crates/federated-server/src/engine/trusted_documents_client.rs", "symbols": ["trusted_document_url", "TrustedDocumentsClient"]}, {"file": "crates/engine/src/prepare/trusted_documents.rs", "symbols": ["extract_operation_document", "handle_trusted_document_query"]}, {"file": "crates/federated-server/src/graph/loader/object_storage.rs", "symbols": ["LatestProductionVersion", "byte_serialize"]}]}
{"id": "C12", "title": "Authorization directives are all evaluated, each exactly once, against the right extension", "statement": "For every operation, each distinct authorization rule on a queried element is handed exactly once to the extension that owns its directive, grouped under the right directive name; no rule is dropped, duplicated or attributed to another extension.", "quantifier": "every multiset of rules collected from an operation, in any order", "why_tests_cant": "grouping over arbitrary interleavings of extensions and directives", "anchors": [{"file": "crates/engine/src/prepare/cached/builder/modifiers.rs", "symbols": ["QueryModifiers::build", "ModifierAccumulator::insert"]}]}
{"id": "C120", "title": "The extensions that run are the ones configured, with the permissions they were given", "statement": "For every configuration and content of the disk: a gateway that starts has one extension for every entry of its configuration and no other. It is the one in the configured directory, or the one of the greatest version that is installed and accepted by the requirement, it has the name of the entry, and its manifest is the one found with it; the order directories are listed in does not matter, and if every entry has an extension the catalog is built. Every extension of authentication or hooks runs in one pool, with the settings of its own entry: it may use the network, the environment and the output streams exactly when the entry says so, or says nothing and the manifest asks for it. There is one hooks extension at most, and nothing panics.", "quantifier": "All configurations with distinct names, all contents and orders of directories, all manifests and version requirements.", "why_tests_cant": "Which extension is picked depends on the listing of the directory, the order of versions and three lookups by name, key and position; tests install one or two versions.", "anchors": [{"file": "crates/federated-server/src/extensions.rs", "symbols": ["create_extension_catalog_impl", "find_matching_extensions_in_dir", "load_extension_from_path"]}, {"file": "crates/wasi-component-loader/src/extension/config.rs", "symbols": ["load_extensions_config"]}, {"file": "crates/wasi-component-loader/src/extension/collection/gateway.rs", "symbols": ["GatewayWasmExtensions", "Multiple hooks extensions found"]}]}
{"id": "C121", "title": "A request reaches the graph exactly when the extensions of its resource admit it", "statement": "For every configuration of authentication and all answers of the extensions, in every order they complete in: each extension the resource names (or every authentication extension, if it names none) is asked once, and no other. The request reaches the graph exactly when the hook on requests lets it and one of the extensions gives a token, or the default of the resource (otherwise that of the gateway) lets it; it does so once, with that token and the contract key of the hook or of the gateway. Otherwise the client gets the first client error of the extensions, the first error if there is none, or 401, and the hook on responses is not called. The token does not depend on the order the extensions complete in, credentials that are refused are not let through, and without a default nobody gets in without a token. The gateway starts exactly when the extensions that are named exist and are of authentication; nothing panics.", "quantifier": "All catalogs, resources, defaults, answers (tokens, refusals, traps, missing instances) and completion orders.", "why_tests_cant": "The result depends on the interleaving of concurrent calls and on the product of the defaults, lists and kinds of failures; tests have one or two extensions that answer in a fixed order.", "anchors": [{"file": "crates/wasi-component-loader/src/extension/runtime/authentication.rs", "symbols": ["authenticate", "At least one authentication extension should be present"]}, {"file": "crates/federated-server/src/router/mod.rs", "symbols": ["build_extension_layer"]}, {"file": "crates/federated-server/src/router/layers/extension.rs", "symbols": ["default_authentication_behavior", "authentication_extension_ids"]}, {"file": "crates/extension-catalog/src/catalog.rs", "symbols": ["get_id_by_config_key"]}]}
{"id": "C122", "title": "The hooks extension gets exactly the events it asked for, in order", "statement": "For every catalog with a hooks extension and everything that happens during a request: the queue it gets with the response has exactly the events whose type its filter names (its own, otherwise the older one of its manifest; all of them if it asks for all; none without a filter), in the order they happened. This holds of operations, requests to subgraphs and HTTP requests, and of the events that other extensions send.", "quantifier": "All filters, catalogs and sequences of events.", "why_tests_cant": "Whether an event arrives is decided at two ends, by a filter in the gateway and by a flag given to the guests that is computed from the filters of the catalog; tests of the queue use one end.", "anchors": [{"file": "crates/event-queue/src/lib.rs", "symbols": ["must_keep_event", "push_extension_event", "push_operation"]}, {"file": "crates/wasi-component-loader/src/extension/config.rs", "symbols": ["can_skip_sending_events"]}, {"file": "crates/wasi-component-loader/src/extension/collection/gateway.rs", "symbols": ["hooks_event_filter", "convert_event_filter"]}, {"file": "crates/grafbase-sdk/src/host_io/event_queue.rs", "symbols": ["can_skip_sending_events"]}]}
{"id": "C123", "title": "GET and POST requests with the same contents are the same request", "statement": "For every body: it is read exactly when it is an object with at most one query, operationName, doc_id, variables and extensions of the right types (or a list of these, in order), and the request has exactly what the members say; other members are ignored, a member that is null is as good as absent, and of several variables of one name the last one counts. For every query string: the same holds of its parameters, where variables and extensions are JSON. Any names and values of parameters survive the encoding of query strings, and a request written by a client, by POST or by GET as the GraphQL-over-HTTP specification has it, is read as that request.", "quantifier": "All JSON values, all query strings, all requests with distinct variables, a version below 2^32 and a hash of bytes; all JSON parsers that read what they print.", "why_tests_cant": "Bodies and query strings are unbounded inputs, and the two ways are read by different types whose fields are named independently; tests send a handful of queries, mostly by POST.", "anchors": [{"file": "crates/engine/operation/src/request/mod.rs", "symbols": ["QueryParamsRequest", "QueryParams", "BatchRequest", "RawVariables"]}, {"file": "crates/engine/operation/src/request/extensions.rs", "symbols": ["RequestExtensions", "PersistedQueryRequestExtension"]}, {"file": "crates/engine/src/execution/request/mod.rs", "symbols": ["extract_well_formed_graphql_over_http_request"]}]}
{"id": "C124", "title": "A page of another origin can do exactly what the CORS configuration permits", "statement": "For every configuration the gateway starts with and every request a script sends from a page of another origin, by the Fetch standard: the preflight passes exactly if the configuration lists the origin (itself, or by a pattern) or allows any, permits the credentials, and allows the method and every header, whatever the case of the names; without a configuration everything but credentials is permitted. Of the response the page can read exactly the headers that are exposed, and no response names an origin that is not listed. With the CSRF protection, exactly those requests of pages reach the graph that are permitted and have its header. Every configuration that is read is one the gateway starts with, and every listed origin is permitted.", "quantifier": "All configurations, all patterns and matchers of patterns, all pages, methods, headers and credentials.", "why_tests_cant": "What a page can do follows from the configuration, two layers, and the algorithm of browsers together; tests look at single headers of single responses.", "anchors": [{"file": "crates/federated-server/src/router/layers/cors.rs", "symbols": ["cors_layer", "must be ascii", "BeforePath"]}, {"file": "crates/federated-server/src/router/layers/csrf.rs", "symbols": ["CsrfService", "valid_csrf"]}, {"file": "crates/federated-server/src/router/mod.rs", "symbols": ["CorsLayer::permissive"]}, {"file": "crates/gateway-config/src/cors.rs", "symbols": ["AnyOrArray", "CorsConfig"]}]}
{"id": "C125", "title": "Following the suggestions of the linter satisfies it", "statement": "For every name in a schema: the linter suggests another one exactly if the name is not in the case of its position (camel, pascal or capitals with underscores) and is no exception (an underscore in front, or letters, two underscores and more). The suggestion has the letters and digits of the name in the same order, names of types and fields get no underscores, and a name that follows a suggestion is not warned about again. Fields of the root types get a warning for a prefix or suffix exactly if they have it, one prefix at most, and fields of the system get none.", "quantifier": "All names, all cases, all root types.", "why_tests_cant": "How names are cut into words depends on the neighbours of every character; tests look at a dozen names and never lint a suggestion.", "anchors": [{"file": "crates/graphql-lint/src/lib.rs", "symbols": ["case_check", "visit_field", "visit_enum_value", "to_shouty_snake_case"]}]}
{"id": "C126", "title": "Descriptions and addresses in the schemas given to MCP clients are read as they were written", "statement": "For every string that the schema writer puts between quotes, and for every description at every indentation, a reader that follows the section on strings of the GraphQL specification (escapes, block strings with their common indentation and blank lines) gets the same text back, and what follows the string is what was written after it: a description never becomes other definitions of the schema.", "quantifier": "All texts, all indentations.", "why_tests_cant": "Descriptions come from subgraphs and can have any character; tests write a few plain sentences and compare the output with a snapshot without reading it back.", "anchors": [{"file": "crates/mcp/src/tools/sdl/buffer.rs", "symbols": ["write_quoted", "write_description"]}]}
{"id": "C13", "title": "@skip and @include follow the specification", "statement": "A field is left out of the response exactly when one of the @skip conditions applying to it is true or one of its @include conditions is false.", "quantifier": "every set of directives and every variable assignment", "why_tests_cant": "all combinations of nested conditions", "anchors": [{"file": "crates/engine/src/prepare/operation_plan/query_modifications.rs", "symbols": ["handle_native_modifiers", "skip_field"]}]}
{"id": "C14", "title": "Every field needed to resolve an included field is requested", "statement": "After skipping or denying fields, the set of fields requested from subgraphs still contains everything the remaining fields transitively require, a denied field is requested only if something else needs it, and computing that set terminates.", "quantifier": "every requirement graph between fields (including cyclic derive/require references) and every subset of skipped and denied fields", "why_tests_cant": "a fix-point over arbitrary graphs", "anchors": [{"file": "crates/engine/src/prepare/operation_plan/query_modifications.rs", "symbols": ["Builder::finalize"]}]}
{"id": "C15", "title": "A shape is marked as failing exactly when it contains a denied field", "statement": "The linear merge scan that marks response shapes containing denied fields marks precisely the shapes whose fields include a denied one; no denied field escapes.", "quantifier": "every list of shapes and every set of denied field shapes", "why_tests_cant": "a two-pointer merge over arbitrary ranges", "anchors": [{"file": "crates/engine/src/prepare/operation_plan/query_modifications.rs", "symbols": ["Builder::finalize"]}]}
{"id": "C16", "title": "Plans run at most once and only after everything they depend on", "statement": "During execution of an operation, whatever the order in which subgraph requests complete or fail, each plan and response modifier starts at most once and only after all the plans and modifiers it depends on have finished successfully; and if all of its ancestors succeed it does start.", "quantifier": "every dependency graph, every completion order, every assignment of failures", "why_tests_cant": "schedules are interleavings of concurrent requests", "anchors": [{"file": "crates/engine/src/execution/operation/coordinator.rs", "symbols": ["OperationExecution::run", "ingest_execution_result"]}, {"file": "crates/engine/src/execution/operation/state.rs", "symbols": ["OperationExecutionState::get_next_executables"]}]}
{"id": "C17", "title": "Mutation root fields run one after the other in document order", "statement": "For a mutation split over several subgraph requests, a root request starts only after the previous one in document order completed; two of them are never in flight together.", "quantifier": "every mutation, every partition of its root fields, every completion order", "why_tests_cant": "concurrency", "anchors": [{"file": "crates/engine/src/prepare/operation_plan/builder.rs", "symbols": ["Builder::finalize"]}, {"file": "crates/engine/src/prepare/cached/builder/mutation_order.rs", "symbols": ["Solver"]}]}
{"id": "C18", "title": "Subscription events are delivered in order, with bounded concurrency", "statement": "Responses to subscription events are emitted in the order the subgraph produced the events, none is lost or duplicated, whatever order their executions finish in, and at most three are executing at a time.", "quantifier": "every event stream and every completion schedule", "why_tests_cant": "concurrency", "anchors": [{"file": "crates/engine/src/execution/operation/coordinator.rs", "symbols": ["SubscriptionExecution::execute"]}]}
{"id": "C19", "title": "The response never shows null at a non-null position", "statement": "Whatever JSON a subgraph returns, the data sent to the client conforms to the schema types of the selection: a null at a non-null position is replaced by nulling the closest nullable ancestor (or the whole data).", "quantifier": "every subgraph JSON response and every shape, of any depth and list nesting", "why_tests_cant": "all malformed responses against all shapes", "anchors": [{"file": "crates/engine/src/response/write/deserialize/field.rs", "symbols": ["FieldSeed"]}, {"file": "crates/engine/src/response/write/deserialize/list/mod.rs", "symbols": ["ListSeed"]}, {"file": "crates/engine/src/response/write/deserialize/object/fields.rs", "symbols": ["ConcreteShapeFieldsSeed"]}, {"file": "crates/engine/src/response/write/part.rs", "symbols": ["ResponsePartBuilder::propagate_null"]}, {"file": "crates/engine/src/response/write/mod.rs", "symbols": ["ResponseBuilder::ingest"]}, {"file": "crates/engine/src/response/data.rs", "symbols": ["DataPart::make_inaccessible"]}, {"file": "crates/engine/src/response/read/ser/data.rs", "symbols": ["SerializableResponseValue"]}]}
{"id": "C20", "title": "Every error leaves a trace, and valid data is left alone", "statement": "If a subgraph's data for a selection conforms to the expected types, the client receives exactly that data with no error; if something was replaced by null because it did not conform, at least one error is reported.", "quantifier": "every subgraph JSON response and every shape", "why_tests_cant": "all responses against all shapes", "anchors": [{"file": "crates/engine/src/response/write/deserialize/object/fields.rs", "symbols": ["handle_typename_fields"]}, {"file": "crates/engine/src/response/write/deserialize/list/mod.rs", "symbols": ["ListSeed::unexpected_type"]}]}
{"id": "C21", "title": "When a subgraph fails, each of its nullable fields is present exactly once as null", "statement": "If a subgraph request fails and its fields are all nullable, the parent object in the response contains every requested field exactly once: fields already present keep their value, the others are null.", "quantifier": "every existing object and every list of default fields", "why_tests_cant": "needs at least two missing trailing fields in a specific order", "anchors": [{"file": "crates/engine/src/response/write/merge.rs", "symbols": ["merge_with_default_object"]}]}
{"id": "C22", "title": "Merging subgraph responses keeps every field of both and never crashes", "statement": "When two subgraph responses contribute to the same object, the merged object contains every field of both, recursively, ordered by position in the query, for any values the two subgraphs may return.", "quantifier": "every pair of response trees", "why_tests_cant": "all pairs of responses, including disagreeing ones", "anchors": [{"file": "crates/engine/src/response/write/merge.rs", "symbols": ["recursive_merge_object", "recursive_merge_value", "recursive_merge_list"]}]}
{"id": "C23", "title": "Entity responses are attributed to the entity that was asked for", "statement": "In an entity request the i-th returned entity updates the i-th requested object; every requested object receives exactly one update (data, null or error) whatever the length of the returned list.", "quantifier": "every list of requested entities, cached or not, and every returned list", "why_tests_cant": "lengths and positions are unbounded; cache hits interleave with misses", "anchors": [{"file": "crates/engine/src/resolver/graphql/federation/with_cache.rs", "symbols": ["PartiallyCachedEntitiesSeed::visit_seq", "ingest_hits"]}, {"file": "crates/engine/src/resolver/graphql/cache.rs", "symbols": ["fetch_entities"]}]}
{"id": "C24", "title": "Different operations never share an operation cache entry", "statement": "Two requests share a cached operation only if they ask for the same operation name and the same document (or trusted document id and client, or persisted-query hash).", "quantifier": "every pair of requests", "why_tests_cant": "an injectivity claim over all byte strings", "anchors": [{"file": "crates/engine/src/engine/cache.rs", "symbols": ["CacheKey", "DocumentKey"]}, {"file": "crates/engine/operation/src/parse/mod.rs", "symbols": ["parse_impl"]}]}
{"id": "C25", "title": "An entity cache entry is only used for the request that could have produced it", "statement": "Two subgraph requests share an entity cache entry only if they go to the same subgraph with the same headers, for the same entity and the same selected fields.", "quantifier": "every pair of subgraph requests", "why_tests_cant": "an injectivity claim over all names, header lists and bodies", "anchors": [{"file": "crates/engine/src/resolver/graphql/cache.rs", "symbols": ["prepare_key_hasher", "fetch_entities", "fetch_response"]}]}
{"id": "C26", "title": "Cache-Control of subgraph responses is honoured", "statement": "A response marked private or no-store, or containing errors, is never stored; otherwise it is stored for max-age minus age if given, else for the configured time; and no combination of response headers crashes the gateway.", "quantifier": "every status, header combination and configured time", "why_tests_cant": "all pairs of max-age and age", "anchors": [{"file": "crates/engine/src/resolver/graphql/cache.rs", "symbols": ["calculate_cache_ttl"]}]}
{"id": "C27", "title": "The entity cache never serves an expired or foreign value", "statement": "Reading a key returns a value only if it was the last one stored under that very key and its time to live has not elapsed.", "quantifier": "every history of reads, writes and clock advances", "why_tests_cant": "arbitrary histories", "anchors": [{"file": "crates/runtime-local/src/entity_cache/memory.rs", "symbols": ["InMemoryEntityCache"]}, {"file": "crates/runtime-local/src/entity_cache/redis.rs", "symbols": ["RedisEntityCache"]}]}
{"id": "C28", "title": "The tiered operation cache is transparent", "statement": "Looking up an operation through the memory tier backed by a shared store returns what a single unbounded cache would have returned or a miss, in every interleaving of gateways, evictions and background writes.", "quantifier": "every history over any number of gateways", "why_tests_cant": "distributed interleavings and evictions", "anchors": [{"file": "crates/runtime-local/src/operation_cache/tiered.rs", "symbols": ["TieredOperationCache"]}]}
{"id": "C29", "title": "With trusted documents enforced only registered documents run", "statement": "When enforcement is on and the bypass header is absent or wrong, the text that gets executed is always the one the trusted document store returned for the client's name and the document id in the request, across any history of requests and cache hits.", "quantifier": "every configuration, every history of requests", "why_tests_cant": "cache contents depend on the whole history", "anchors": [{"file": "crates/engine/src/prepare/trusted_documents.rs", "symbols": ["extract_operation_document", "handle_trusted_document_query"]}, {"file": "crates/engine/src/prepare/mod.rs", "symbols": ["prepare_operation"]}]}
{"id": "C30", "title": "A persisted query hash always designates the text it is the SHA-256 of", "statement": "An automatic persisted query registered with a hash is executed only if the hash matches the query text, and later requests with only the hash execute that same text.", "quantifier": "every history of requests", "why_tests_cant": "depends on the whole history", "anchors": [{"file": "crates/engine/src/prepare/trusted_documents.rs", "symbols": ["handle_apq"]}, {"file": "crates/engine/src/engine/cache.rs", "symbols": ["DocumentKey"]}]}
{"id": "C31", "title": "Configured rate limits are enforced", "statement": "With a limit of L requests per duration D configured for a key, no window of length D sees more than a bounded multiple of L accepted requests, for every positive L and D.", "quantifier": "every limit, duration and arrival sequence", "why_tests_cant": "all request timings", "anchors": [{"file": "crates/runtime-local/src/rate_limiting/in_memory/key_based.rs", "symbols": ["create_limiter", "InMemoryRateLimiter::limit"]}, {"file": "crates/runtime-local/src/rate_limiting/redis.rs", "symbols": ["RedisRateLimiter::limit_inner"]}]}
{"id": "C32", "title": "Rate limit buckets of different keys and windows never collide in the shared store", "statement": "The storage keys used for the global limit and for each subgraph limit are different for different subgraphs and different time buckets.", "quantifier": "every prefix, subgraph name and bucket", "why_tests_cant": "an injectivity claim over all strings", "anchors": [{"file": "crates/runtime-local/src/rate_limiting/redis.rs", "symbols": ["generate_key"]}]}
{"id": "C33", "title": "Rotating log files never lose acknowledged log lines", "statement": "Every byte whose write was acknowledged is found, in order, in the concatenation of the rotated files and the current file, and a file is rotated as soon as its size or age threshold is exceeded.", "quantifier": "every sequence of writes, restarts and clock readings", "why_tests_cant": "depends on the clock and on restarts", "anchors": [{"file": "crates/rolling-logger/src/lib.rs", "symbols": ["RollingLogger::write", "flush_and_rotate"]}, {"file": "crates/rolling-logger/src/log_file.rs", "symbols": ["LogFile::needs_rotation", "LogFile::new"]}]}
{"id": "C34", "title": "Hop-by-hop and protected headers never reach a subgraph", "statement": "Whatever header rules are configured and whatever headers the client sends, no header on the protected list (hop-by-hop, host, content-length, ...) is added to a subgraph request.", "quantifier": "every rule list, every client header list", "why_tests_cant": "all rule combinations", "anchors": [{"file": "crates/engine/src/execution/request/header_rule.rs", "symbols": ["apply_header_rules", "handle_forward", "handle_rename_duplicate", "find_matching_denied_header"]}]}
{"id": "C35", "title": "Graph references survive printing and parsing", "statement": "Parsing a graph reference and printing it gives back an equivalent reference; printing any reference obtained by parsing and parsing it again yields the same reference.", "quantifier": "every string", "why_tests_cant": "a round-trip law over all strings", "anchors": [{"file": "crates/graph-ref/src/lib.rs", "symbols": ["GraphRef::from_str", "GraphRef::fmt"]}]}
{"id": "C36", "title": "Configuration templates only substitute what they name", "statement": "In configuration strings every {{ env.NAME }} is replaced by the value of that variable, all other text is unchanged, and any unknown expression or missing variable makes loading fail instead of leaving a hole.", "quantifier": "every string and every environment", "why_tests_cant": "all strings", "anchors": [{"file": "crates/serde-dynamic-string/src/lib.rs", "symbols": ["DynamicString"]}]}
{"id": "C37", "title": "Custom scalar values reach resolvers unchanged", "statement": "Any JSON value supplied for a variable of a custom scalar type is handed to resolvers as an equal JSON value: same structure, same strings, numerically equal numbers.", "quantifier": "every JSON value of any depth", "why_tests_cant": "integers beyond 2^53 are the only failing inputs", "anchors": [{"file": "crates/engine/operation/src/bind/coercion/variable.rs", "symbols": ["coerce_scalar"]}]}
{"id": "C38", "title": "The height limit counts distinct selected fields", "statement": "With a height limit configured, an operation is accepted exactly when the number of different schema fields it selects, over the whole query, is at most the limit.", "quantifier": "every selection tree and limit", "why_tests_cant": "a set threaded through a recursion and a 16-bit counter", "anchors": [{"file": "crates/engine/operation/src/validation/after_binding.rs", "symbols": ["enforce_operation_limits", "SelectionSet::height"]}]}
{"id": "C39", "title": "An annotated list size is used when the client gives none", "statement": "If a list field is annotated with an assumed size and the client supplies no slicing argument, the cost estimate uses the assumed size.", "quantifier": "every annotation, argument list and default size", "why_tests_cant": "combination of three optional annotations and optional arguments", "anchors": [{"file": "crates/engine/operation/src/validation/complexity.rs", "symbols": ["calculate_child_count"]}]}
{"id": "C40", "title": "Type set checks agree with set theory", "statement": "A selection under a type condition is kept iff the condition and the parent output share an object type; the subset test between two composite types answers true iff every object type of the first belongs to the second.", "quantifier": "every pair of strictly increasing lists of object types", "why_tests_cant": "early loop exits only matter for particular interleavings of type identifiers", "anchors": [{"file": "crates/engine/schema/src/composite_type.rs", "symbols": ["has_non_empty_intersection_with", "is_subset_of"]}]}
{"id": "C41", "title": "Each mutation root field is sent in exactly one request", "statement": "However the root fields of a mutation alternate between subgraphs, each root field of the mutation is contained in exactly one of the requests sent to the subgraphs, so its side effect happens once.", "quantifier": "every mutation, every assignment of its root fields to subgraphs", "why_tests_cant": "the number of alternations is unbounded; the faulty pattern needs four root fields over two subgraphs", "anchors": [{"file": "crates/engine/query-solver/src/post_process/mutation_order.rs", "symbols": ["ensure_mutation_execution_order"]}]}
{"id": "C42", "title": "Every mutation asked for is sent to its subgraph", "statement": "Each time a client asks for a mutation its subgraph receives it; and what is shown for a request is the subgraph's answer to that very request.", "quantifier": "every sequence of requests, delays and evictions, any subgraph behaviour", "why_tests_cant": "histories and timings are unbounded", "anchors": [{"file": "crates/engine/src/resolver/graphql/root_fields.rs", "symbols": ["fetch_response_with_cache", "fetch_response_without_cache", "GraphqlWithCachePutIngester"]}, {"file": "crates/engine/src/resolver/graphql/cache.rs", "symbols": ["fetch_response"]}]}
{"id": "C43", "title": "Subgraph headers are what the header rules say", "statement": "Every header of a subgraph request was put there by a configured rule, with a value from the client's request or the configuration; a header forwarded by name has exactly the values the client sent (or the default), a removed header is absent, and headers that no rule mentions are left alone.", "quantifier": "every rule list, client header list and starting header list", "why_tests_cant": "all combinations of rules and headers", "anchors": [{"file": "crates/engine/src/execution/request/header_rule.rs", "symbols": ["apply_header_rules", "handle_forward", "handle_insert", "handle_remove", "handle_rename_duplicate"]}]}
{"id": "C44", "title": "The traced text of a document shows its outline and none of its literals", "statement": "Two documents that differ only in string and number literals, list contents, default values of variables, and directives on operations or spreads have the same text in the traces; conversely two valid documents with the same text have the same operations, fragments, fields, aliases, arguments, directives and variables, up to these.", "quantifier": "every pair of documents", "why_tests_cant": "all pairs of documents", "anchors": [{"file": "crates/operation-normalizer/src/sanitize.rs", "symbols": ["sanitize"]}, {"file": "crates/operation-normalizer/src/sanitize/selection.rs", "symbols": ["sanitize"]}, {"file": "crates/operation-normalizer/src/sanitize/value.rs", "symbols": ["sanitize"]}]}
{"id": "C45", "title": "The normal form of a document identifies its query", "statement": "The normal form that is hashed for the usage statistics is the same for two documents exactly when they ask the same query: same operation up to aliases, literals and the order of arguments, directives, variables and selections, with the same reached fragments; fragments that the operation doesn't reach and other operations don't count.", "quantifier": "every pair of documents and operation name", "why_tests_cant": "all pairs of documents", "anchors": [{"file": "crates/operation-normalizer/src/normalize.rs", "symbols": ["normalize"]}, {"file": "crates/operation-normalizer/src/normalize/selection_set.rs", "symbols": ["normalize", "sort_selection"]}, {"file": "crates/operation-normalizer/src/normalize/arguments.rs", "symbols": ["normalize"]}]}
{"id": "C46", "title": "Responses shared between requests in flight belong to the same request", "statement": "When identical requests to a subgraph are in flight only one of them is at the subgraph, and its response is given to all of them: a request only gets a response that the subgraph has sent for the same request (subgraph, URL, method, body and headers) after this one came in; mutations are never shared; and when the request that was sent is dropped another one is sent instead, so that no request waits for ever.", "quantifier": "every interleaving of arrivals, polls, responses and cancellations of any number of requests", "why_tests_cant": "interleavings of concurrent tasks with cancellation", "anchors": [{"file": "crates/runtime-local/src/fetch/traffic_shaping.rs", "symbols": ["deduplicate", "RequestKey"]}]}
{"id": "C47", "title": "A request to a subgraph is repeated only after a failure that was paid for", "statement": "An attempt follows another one only if that one failed (unreachable, refused by the rate limiter, 5xx or 429) and the retry budget granted it; the result is that of the last attempt, each attempt asks the rate limiter, a success is deposited exactly once, and without a budget there is exactly one attempt.", "quantifier": "every behaviour of rate limiter, subgraph and budget", "why_tests_cant": "all sequences of outcomes", "anchors": [{"file": "crates/engine/src/resolver/graphql/request/execute.rs", "symbols": ["retrying_fetch", "rate_limited_fetch", "execute_subgraph_request"]}]}
{"id": "C48", "title": "Requests to a subgraph follow its settings", "statement": "Retries, caching and timeout of requests to a subgraph are those of the subgraph in the configuration if it has any, and the gateway's otherwise: in particular nothing is retried or cached when it is disabled there, and mutations are only retried where this is allowed.", "quantifier": "every configuration", "why_tests_cant": "all combinations of settings", "anchors": [{"file": "crates/engine/schema/src/builder/subgraphs.rs", "symbols": ["SubgraphsBuilder"]}, {"file": "crates/engine/src/engine/retry_budget.rs", "symbols": ["RetryBudgets", "get_retry_budget_for_mutation"]}]}
{"id": "C49", "title": "Operation checks report what breaks the operations that are used", "statement": "The usage counts exactly what the given operations use, with the number of requests, and a threshold keeps exactly what is used that often. If the checks report no error for the changes from one schema to another, every such operation that was valid stays valid, its fields return results of types it could get before, and the values accepted for its arguments are still accepted. Whatever is reported is a change that concerns something an operation uses; nothing is reported without operations, and with all of the schema counted as used nothing less is reported.", "quantifier": "every pair of schemas, every list of operations with fragments, every number of requests and threshold", "why_tests_cant": "The tests are some pairs of small schemas with one operation; missed breakages come from combinations of a change, the place of an argument in a sorted table and the way in which an operation refers to it.", "anchors": [{"file": "crates/operation-checks/src/aggregate_field_usage.rs", "symbols": ["aggregate_field_usage", "apply_request_count_threshold"]}, {"file": "crates/operation-checks/src/check.rs", "symbols": ["check", "find_used_input_types"]}, {"file": "crates/operation-checks/src/check/rules.rs", "symbols": ["remove_field", "add_field_argument", "change_field_argument_type", "change_field_type", "remove_object_type"]}, {"file": "crates/operation-checks/src/schema.rs", "symbols": ["find_field", "iter_field_arguments"]}, {"file": "crates/operation-checks/src/schema/wrapping_types.rs", "symbols": ["compare"]}]}
{"id": "C50", "title": "Comparing two schemas lists exactly their differences", "statement": "The list of changes between two schemas contains exactly the differences between them: types and directives that appear, disappear or change kind, fields, enum values, union members, arguments and their types and default values, implemented interfaces and root types; each with its path and the text it introduces, in the order of paths and kinds. A schema has no difference to itself, the list is empty exactly for equivalent schemas, and the changes in the opposite direction are the opposite changes.", "quantifier": "every pair of schema documents in which nothing is defined twice", "why_tests_cant": "all pairs of schemas", "anchors": [{"file": "crates/graphql-schema-diff/src/state.rs", "symbols": ["into_changes", "push_added_type"]}, {"file": "crates/graphql-schema-diff/src/traverse_schemas.rs", "symbols": ["traverse_source", "traverse_target"]}, {"file": "crates/graphql-schema-diff/src/lib.rs", "symbols": ["diff"]}]}
{"id": "C51", "title": "Applying the differences to a schema gives the other schema", "statement": "Applying to a schema the changes found between it and a second one, with the texts they refer to, gives a schema that says what the second one does: the same types and directives of the same kinds, fields and their types, enum values and union members, arguments, implemented interfaces, root types and number of schema extensions.", "quantifier": "every pair of schema documents in which nothing is defined twice, all names are names of the grammar, arguments are only added or removed (none added at the end), removed interfaces come before the fields in the order of names, and schema extensions are only added or all removed", "why_tests_cant": "all pairs of schemas", "anchors": [{"file": "crates/graphql-schema-diff/src/patch.rs", "symbols": ["patch"]}, {"file": "crates/graphql-schema-diff/src/patch/type_definitions.rs", "symbols": ["patch_type_definition", "patch_fields"]}, {"file": "crates/graphql-schema-diff/src/patch/paths.rs", "symbols": ["Paths"]}, {"file": "crates/graphql-schema-diff/src/lib.rs", "symbols": ["resolve_spans"]}]}
{"id": "C52", "title": "The text of a path names one place in a schema", "statement": "The text written for a path into a schema is read back as the same path, so that different paths have different texts. The texts that are accepted are exactly those of the grammar of paths, with indices of at most 64 bits. The texts of the paths in a list of changes are in order, and are split into the segments by which a patch looks them up.", "quantifier": "every path with names of the grammar, every text, every pair of schemas", "why_tests_cant": "all texts", "anchors": [{"file": "crates/graphql-schema-diff/src/path/parse.rs", "symbols": ["parse", "parse_name_and_optional_index", "parse_index"]}, {"file": "crates/graphql-schema-diff/src/path/display.rs", "symbols": ["fmt"]}, {"file": "crates/graphql-schema-diff/src/patch/paths.rs", "symbols": ["split_path"]}]}
{"id": "C53", "title": "The type of a composed field fits every subgraph", "statement": "Where the subgraphs nest lists equally, two types of a field compose exactly if they differ at most in whether the outermost type is required. What the composed output type allows is exactly what the type of one of the subgraphs allows; what the composed type of an argument or input field accepts is exactly what the types of all of them accept. The order of the subgraphs does not matter. Types that nest lists differently are refused.", "quantifier": "every list of subgraphs, every type with any nesting of lists, every response and every input value, whatever the named types stand for", "why_tests_cant": "Snapshot tests compose a few pairs of types; the loop over the wrappers goes wrong for certain pairs of depths only.", "anchors": [{"file": "crates/graphql-composition/src/subgraphs/field_types.rs", "symbols": ["compose", "compose_for_input", "compose_for_output"]}, {"file": "crates/graphql-composition/src/compose/fields.rs", "symbols": ["compose_field_types", "compose_argument_types"]}]}
{"id": "C54", "title": "The values of a composed enum fit where it is used", "statement": "The values of an enum that is only used for input are those that every subgraph that defines it has, and there is at least one; of an enum that is not used for input they are those that any subgraph has, each once. If it is used for both, all subgraphs that define it list the same values in the same order, otherwise composition fails with a conflict. Hence no client can send a value that a subgraph does not know, and no subgraph can return a value that the schema does not have.", "quantifier": "every list of subgraphs and every enum in them", "why_tests_cant": "Snapshots pin a few enums; where an enum is used depends on all fields and arguments of all subgraphs.", "anchors": [{"file": "crates/graphql-composition/src/compose/enums.rs", "symbols": ["merge_enum_definitions", "merge_intersection", "merge_union", "merge_exactly_matching"]}, {"file": "crates/graphql-composition/src/compose/enums.rs", "symbols": ["enum_is_used_in_input", "enum_is_used_in_return_position"]}]}
{"id": "C55", "title": "Every subgraph accepts the input that the composed schema accepts", "statement": "A value that the composed schema accepts for a type is, with defaults filled in, accepted for the same type by each subgraph that defines it; the arguments that the composed schema accepts for a field are accepted by each subgraph that defines the field.", "quantifier": "all well-formed subgraphs that agree on kinds and nesting of lists, without entity interfaces; all input values of any depth", "why_tests_cant": "Tests compare composed SDL with snapshots; they do not relate values across schemas, and input objects can be nested and recursive.", "anchors": [{"file": "crates/graphql-composition/src/compose/input_object.rs", "symbols": ["merge_input_object_definitions"]}, {"file": "crates/graphql-composition/src/compose/fields.rs", "symbols": ["compose_argument_types"]}, {"file": "crates/graphql-composition/src/compose/enums.rs", "symbols": ["merge_enum_definitions"]}]}
{"id": "C56", "title": "The composed schema has all that subgraphs return", "statement": "Data that conform to a type in a subgraph conform to the type of the same name in the composed schema: objects are of types that the composed interface or union has, fields are there, nulls are allowed where a subgraph returns null, values are in the composed enums. In particular the result of any operation at a root.", "quantifier": "all well-formed subgraphs that agree on kinds and nesting of lists, without entity interfaces; all data of any depth", "why_tests_cant": "Tests compare composed SDL with snapshots; whether returned data still fit depends on all subgraphs at once.", "anchors": [{"file": "crates/graphql-composition/src/compose/object.rs", "symbols": ["compose_fields"]}, {"file": "crates/graphql-composition/src/compose/fields.rs", "symbols": ["compose_field_types"]}, {"file": "crates/graphql-composition/src/compose/interface.rs", "symbols": ["merge_interface_definitions"]}, {"file": "crates/graphql-composition/src/compose.rs", "symbols": ["compose_subgraphs"]}]}
{"id": "C57", "title": "Composition loses nothing and invents nothing", "statement": "A type is in the composed schema exactly if a subgraph defines it (or it is a scalar of the specification), with the kind it has there, and is defined once. An object or interface has exactly the fields that some subgraph gives it, each once, with exactly the arguments that all definitions of the field have, and implements exactly the interfaces that some subgraph says; a union has exactly the members of its definitions; an input object has exactly the fields that all its definitions have and is @oneOf exactly if one of them is. A root is there exactly if a subgraph has it.", "quantifier": "all well-formed subgraphs that agree on kinds, without entity interfaces", "why_tests_cant": "Snapshot tests cover some dozens of hand-written graphs; names, kinds and roots interact across any number of subgraphs.", "anchors": [{"file": "crates/graphql-composition/src/compose.rs", "symbols": ["compose_subgraphs", "merge_object_definitions", "merge_union_definitions"]}, {"file": "crates/graphql-composition/src/compose/object.rs", "symbols": ["compose_fields", "merge_field_arguments"]}, {"file": "crates/graphql-composition/src/compose/input_object.rs", "symbols": ["merge_input_object_definitions"]}, {"file": "crates/graphql-composition/src/compose/roots.rs", "symbols": ["merge_root_fields"]}, {"file": "crates/graphql-composition/src/emit_federated_graph.rs", "symbols": ["emit_fields", "emit_union_members_after_objects", "emit_interface_after_directives"]}]}
{"id": "C58", "title": "Access control of subgraphs is kept by composition", "statement": "A type, field, argument, input field or enum value is authenticated or inaccessible in the composed schema exactly if it is in some subgraph; its scopes and policies are those of all the subgraphs. Hence whoever all subgraphs let in is let in, nobody unauthenticated gets at what a subgraph keeps for authenticated users, and if at most one subgraph names scopes (or policies) then nobody is let in whom a subgraph would refuse.", "quantifier": "all well-formed subgraphs that agree on kinds, without entity interfaces; every principal", "why_tests_cant": "Tests look at single directives; losing one on some kind of site is a silent security hole.", "anchors": [{"file": "crates/graphql-composition/src/compose/directives.rs", "symbols": ["collect_composed_directives"]}, {"file": "crates/graphql-composition/src/compose/enums.rs", "symbols": ["merge_intersection", "merge_union", "merge_exactly_matching"]}, {"file": "crates/graphql-composition/src/compose/scalar.rs", "symbols": ["merge_scalar_definitions"]}, {"file": "crates/graphql-composition/src/compose/entity_interface.rs", "symbols": ["merge_entity_interface_definitions"]}]}
{"id": "C59", "title": "Composition ends with diagnostics or a schema", "statement": "Composition does not panic: whatever it does not reject it emits, with every type of a field, every parent of a field, every member of a union and every implementer found.", "quantifier": "all well-formed subgraphs that agree on kinds, without entity interfaces, that do not use join__FieldSet as a type", "why_tests_cant": "The invariant that emission relies on spans all merging functions; a test shows it for one graph.", "anchors": [{"file": "crates/graphql-composition/src/emit_federated_graph.rs", "symbols": ["emit_federated_graph", "emit_fields", "emit_interface_after_directives", "emit_union_members_after_objects"]}, {"file": "crates/graphql-composition/src/emit_federated_graph/field_types_map.rs", "symbols": ["insert_field_type"]}]}
{"id": "C60", "title": "The composed schema is a valid schema", "statement": "Every type that the composed schema mentions is defined in it, what is implemented is an interface, members of unions are objects. Where the subgraphs respect them, input and output positions are respected, and what implements an interface has all of its fields.", "quantifier": "all subgraphs for the first part; all well-formed subgraphs that agree on kinds, without entity interfaces, for the rest", "why_tests_cant": "Validity of the result is a property of the whole graph; composition has no validation of its output.", "anchors": [{"file": "crates/graphql-composition/src/compose/interface.rs", "symbols": ["merge_interface_definitions", "check_implementers"]}, {"file": "crates/graphql-composition/src/emit_federated_graph.rs", "symbols": ["emit_federated_graph"]}, {"file": "crates/graphql-composition/src/compose/input_object.rs", "symbols": ["merge_input_object_definitions"]}]}
{"id": "C61", "title": "Diagnostics of schema validation mean what they say", "statement": "If validation ends, every diagnostic is of a fault that the document has as the text of the diagnostic describes it (duplicate names, unknown types, implementations that don't fit, misplaced or repeated directives, cycles of input objects with the fields of the cycle, and so on), and every such fault has a diagnostic. A document is accepted exactly if it has none of the faults.", "quantifier": "all schema documents that can be parsed, with all four combinations of the options", "why_tests_cant": "The tests are about sixty files, nearly each with one fault; that no combination of definitions and extensions hides a fault or makes one up is a statement about all documents.", "anchors": [{"file": "crates/graphql-schema-validation/src/lib.rs", "symbols": ["validate_with_options"]}, {"file": "crates/graphql-schema-validation/src/context.rs", "symbols": ["Context", "with_implements", "find_duplicates"]}, {"file": "crates/graphql-schema-validation/src/validate/interface_implementers.rs", "symbols": ["validate_implements_list"]}, {"file": "crates/graphql-schema-validation/src/validate/input_object_cycles.rs", "symbols": ["input_object_cycles"]}]}
{"id": "C62", "title": "Rules of the specification that accepted schemas obey", "statement": "A document that validation accepts obeys the rules of the GraphQL specification for schemas (section 3 of October 2021) on the schema that definitions and extensions give together.", "quantifier": "all schema documents that can be parsed, all options, each rule of the specification apart from those about default values and arguments of directives", "why_tests_cant": "The crate says that it covers the specification completely and faithfully; a rule that is missed shows only for documents nobody has written a test for.", "anchors": [{"file": "crates/graphql-schema-validation/src/lib.rs", "symbols": ["validate_with_options"]}, {"file": "crates/graphql-schema-validation/src/validate/objects.rs", "symbols": ["validate_object"]}, {"file": "crates/graphql-schema-validation/src/validate/interfaces.rs", "symbols": ["validate_interface"]}, {"file": "crates/graphql-schema-validation/src/validate/input_objects.rs", "symbols": ["validate_input_object"]}, {"file": "crates/graphql-schema-validation/src/validate/directive_definitions.rs", "symbols": ["validate_directive_definition"]}]}
{"id": "C63", "title": "Schemas that obey the specification are accepted", "statement": "Validation accepts every document that obeys the rules of the specification.", "quantifier": "all schema documents without extensions that obey the specification, with all options", "why_tests_cant": "A valid schema that is refused keeps a user from starting the gateway at all; tests have few valid documents.", "anchors": [{"file": "crates/graphql-schema-validation/src/lib.rs", "symbols": ["validate_with_options"]}, {"file": "crates/graphql-schema-validation/src/validate/schema_definition.rs", "symbols": ["validate_schema_definition"]}, {"file": "crates/graphql-schema-validation/src/validate/interface_implementers.rs", "symbols": ["validate_implements_list"]}]}
{"id": "C64", "title": "Schema validation doesn't panic", "statement": "Validation of a document ends with a list of diagnostics.", "quantifier": "all schema documents that can be parsed, with all options", "why_tests_cant": "Panics depend on how indexes into a list of definitions and extensions fall; a test has to hit the combination.", "anchors": [{"file": "crates/graphql-schema-validation/src/validate/enums.rs", "symbols": ["validate_enum_members"]}, {"file": "crates/graphql-schema-validation/src/context.rs", "symbols": ["find_duplicates"]}]}
{"id": "C65", "title": "Input objects of accepted schemas have values", "statement": "An input object that is reported as a cycle has no finite value: no document could ever pass one. In an accepted document every input type has a value.", "quantifier": "all schema documents that can be parsed with unique type names; the second part for those without extensions", "why_tests_cant": "Which chains of non-null fields close, through how many types and past which lists and nullable fields, is a property of the graph of all input objects.", "anchors": [{"file": "crates/graphql-schema-validation/src/validate/input_object_cycles.rs", "symbols": ["input_object_cycles", "references_input_object_rec"]}]}
{"id": "C66", "title": "The order of definitions doesn't matter", "statement": "Validation has the same diagnostics, up to the chains of cycles, for a document and every reordering of its definitions.", "quantifier": "all schema documents without ambiguous names, with all options, and all permutations of the definitions", "why_tests_cant": "A document of n definitions has n! orders; tests have one.", "anchors": [{"file": "crates/graphql-schema-validation/src/context.rs", "symbols": ["Context"]}, {"file": "crates/graphql-schema-validation/src/lib.rs", "symbols": ["validate_with_options"]}]}
{"id": "C67", "title": "Literals are accepted as arguments exactly if they fit", "statement": "The arguments of a field are accepted exactly if each name is written once and is that of a visible argument, its literal fits the argument's type (lists, input objects and @oneOf objects included, with a single value for a list at arguments and fields), variables may be used where they are, and no required argument is missing. The default of a variable is accepted exactly if it fits without variables.", "quantifier": "all schemas, argument definitions, literals and variable definitions", "why_tests_cant": "Literals nest without limit and each level has its own rules for null, lists and missing fields; tests cover a few levels of a few types.", "anchors": [{"file": "crates/engine/operation/src/bind/coercion/query.rs", "symbols": ["coerce_query_value", "coerce_input_value", "coerce_input_object", "coerce_scalar"]}, {"file": "crates/engine/operation/src/bind/operation.rs", "symbols": ["bind_field_arguments_sorted"]}]}
{"id": "C68", "title": "Arguments are sent with the meaning that was written", "statement": "What a field is executed with is, for each visible argument in the order of the schema, the JSON that its literal stands for, with values of variables put in; the default if it isn't written or its variable has no value; or nothing. There is only one such value.", "quantifier": "all accepted arguments, values of variables, schemas with defaults", "why_tests_cant": "Literals are stored as ids of parts in arenas and as references to values of the schema, and written by three serializers; a mistake shows for some combination of them only.", "anchors": [{"file": "crates/engine/operation/src/bind/coercion/query.rs", "symbols": ["coerce_query_value"]}, {"file": "crates/engine/operation/src/model/input_value/query/mod.rs", "symbols": ["QueryInputValueRecord"]}, {"file": "crates/engine/src/prepare/cached/query_plan/field/arguments.rs", "symbols": ["PlanFieldArguments"]}]}
{"id": "C69", "title": "Whatever a field is executed with is accepted by its arguments' types", "statement": "Once an operation and the variables of a request are accepted, the JSON that each field is executed with is accepted by the types of its arguments: only visible arguments, none required is missing, each value is of its type.", "quantifier": "all schemas, operations and requests in which no variable of a custom scalar is given a list", "why_tests_cant": "Literals, variables, defaults of variables and defaults of the schema are checked in four places and at different times; that all combinations add up to a valid value is a statement about all of them.", "anchors": [{"file": "crates/engine/operation/src/bind/operation.rs", "symbols": ["bind_field_arguments_sorted", "bind_variable_definitions"]}, {"file": "crates/engine/operation/src/bind/mod.rs", "symbols": ["bind_variables"]}, {"file": "crates/engine/operation/src/bind/coercion/query.rs", "symbols": ["are_type_compatibles"]}, {"file": "crates/engine/src/prepare/cached/query_plan/field/arguments.rs", "symbols": ["PlanFieldArguments"]}]}
{"id": "C70", "title": "Which operations are accepted for their values", "statement": "The values of an operation are accepted exactly if variables have distinct names, known input types and defaults that fit, each value fits at its place, @skip and @include have a Boolean, and each variable is used.", "quantifier": "all schemas, operations (as their variable definitions and the places that have values)", "why_tests_cant": "Whether a variable may be used depends on its declared type, its default and each place that uses it.", "anchors": [{"file": "crates/engine/operation/src/bind/operation.rs", "symbols": ["bind_root", "bind_variable_definitions", "bind_field_arguments_sorted"]}, {"file": "crates/engine/operation/src/bind/mod.rs", "symbols": ["bind_operation"]}, {"file": "crates/engine/operation/src/bind/coercion/query.rs", "symbols": ["are_type_compatibles"]}]}
{"id": "C71", "title": "Which variables of a request are accepted", "statement": "The variables of a request are accepted exactly if each one given is a value of its variable's type, not null where it is used as the field of a @oneOf object, and each one not given has a default or is nullable and isn't used so.", "quantifier": "all schemas, accepted operations and JSON variables", "why_tests_cant": "A variable is checked once against its type, but used at places with types of their own; tests pair few types with few places.", "anchors": [{"file": "crates/engine/operation/src/bind/mod.rs", "symbols": ["bind_variables"]}, {"file": "crates/engine/operation/src/bind/coercion/variable.rs", "symbols": ["coerce_variable"]}]}
{"id": "C72", "title": "Binding values doesn't panic", "statement": "An operation and the variables of a request are bound without a panic, or the reason is a variable with more than ten nested lists in its type or one inside a list or object that is written for a custom scalar.", "quantifier": "all schemas, operations and requests", "why_tests_cant": "A panic takes the request down without a GraphQL error; the inputs that cause one have to be known to write the test.", "anchors": [{"file": "crates/engine/operation/src/bind/coercion/query.rs", "symbols": ["coerce_scalar"]}, {"file": "crates/engine/operation/src/bind/coercion/error.rs", "symbols": ["ValueKind"]}, {"file": "crates/engine/operation/src/bind/operation.rs", "symbols": ["bind_variable_definitions"]}]}
{"id": "C73", "title": "The planner's search keeps a tree", "statement": "At each point of the search for query plans (any number of runs, with weights changed and terminals added in between) the chosen edges form a tree: each chosen node has exactly one way of chosen edges from the root, each chosen edge joins chosen nodes. A run ends without a panic, takes nothing away, and once it says that it is done all terminals are in the tree.", "quantifier": "all graphs, weights, terminals, changes of weights between runs and orders of equal times", "why_tests_cant": "Which edges are taken depends on times that are fractions of weights and on flows that merge; a tree with two ways to a node shows for some graphs only.", "anchors": [{"file": "crates/engine/query-solver/src/solve/steiner_tree/greedy_flac.rs", "symbols": ["run_once", "run", "find_next_edge_in_T_minus", "update_flow_rates"]}, {"file": "crates/engine/query-solver/src/solve/steiner_tree/mod.rs", "symbols": ["SteinerTree", "extend_terminals"]}]}
{"id": "C74", "title": "When the planner's search ends", "statement": "The search for a tree that connects all terminals to the root ends exactly if each terminal is another node than the root and has a way from it of edges lighter than 65535; it then needs at most one more run than there are terminals, all are connected, and it never panics.", "quantifier": "all graphs, weights, terminals", "why_tests_cant": "The loop has no bound of its own; a graph on which it doesn't end hangs the gateway, and has to be known to write the test.", "anchors": [{"file": "crates/engine/query-solver/src/solve/steiner_tree/greedy_flac.rs", "symbols": ["run", "run_once", "find_next_edge_in_T_minus"]}, {"file": "crates/engine/query-solver/src/solve/steiner_tree/mod.rs", "symbols": ["SteinerTree"]}]}
{"id": "C75", "title": "What the planner's tree weighs", "statement": "The weight that is kept with a tree is the sum of the weights of its edges, each once, up to the wrap at 65536. With one terminal outside of the tree the edges added are a way from the tree of the least weight.", "quantifier": "all graphs, weights, trees, terminals", "why_tests_cant": "The cost of a plan is compared with others; a search that takes a way that is a little heavier gives right answers with more requests.", "anchors": [{"file": "crates/engine/query-solver/src/solve/steiner_tree/greedy_flac.rs", "symbols": ["run", "run_once", "update_flow_rates"]}, {"file": "crates/engine/query-solver/src/solve/steiner_tree/mod.rs", "symbols": ["SteinerTree"]}]}
{"id": "C76", "title": "What subgraphs disagree about isn't composed", "statement": "If subgraphs compose: a field of an object that two of them resolve (not external, not overriding, not internal, second version of the specification) is shareable or part of a key in one of them; no two of them override the same source for a field; an external field has no @requires and no @provides; the defaults that they give for the same argument, or for the same field of an input object, are equal.", "quantifier": "all subgraphs that are valid on their own, at any number, and their order", "why_tests_cant": "The conflict needs two schemas with one detail each that is different; tests have a few such pairs, not every place where a default or a directive can be.", "anchors": [{"file": "crates/graphql-composition/src/validate/composite_schemas/post_merge.rs", "symbols": ["invalid_field_sharing"]}, {"file": "crates/graphql-composition/src/compose/validate.rs", "symbols": ["override_source_has_override"]}, {"file": "crates/graphql-composition/src/compose/object.rs", "symbols": ["compose_field", "merge_field_arguments", "ingest_join_field_directives"]}, {"file": "crates/graphql-composition/src/compose/input_object.rs", "symbols": ["merge_input_object_definitions"]}]}
{"id": "C77", "title": "A protected field is checked before anything depends on it or it is sent", "statement": "If a field of the response is protected by an authorization rule on its response, the rule is executed for it before the response is sent, and before any request is sent that needs a field of the same request; it is executed once the request that provides the field and the requests that provide what the rule needs have succeeded. Requests wait for exactly the requests that provide what they need.", "quantifier": "all operations, required field sets and rules, all answers of subgraphs in all orders", "why_tests_cant": "Which request provides which field depends on the subgraphs and on the operation; the tests of response authorization have one subgraph, where nothing has to wait and nothing else can fail.", "anchors": [{"file": "crates/engine/src/prepare/operation_plan/builder.rs", "symbols": ["finalize", "generate_response_modifier", "generate_plan", "create_required_field_set_for_query_partition", "register_dependencies"]}, {"file": "crates/engine/src/prepare/cached/query_plan/required_field_set.rs", "symbols": ["union"]}, {"file": "crates/engine/src/execution/operation/coordinator.rs", "symbols": ["ingest_execution_result"]}]}
{"id": "C78", "title": "Requests to one subgraph are split so that they can be answered", "statement": "When fields to be requested together from a resolver need each other (through fields of other resolvers), they are put into separate requests: of two fields in one partition neither needs the other. No field is lost, sent twice or moved to another parent or resolver, what partitions require stays the same, requests are split only where fields need each other, and the splitting ends. `__typename` fields of the root are put into the request of the first field. All fields of the query can then be requested.", "quantifier": "for all query graphs (trees of fields and partitions with any requirements), all ways to sort fields of equal position, all starting nodes", "why_tests_cant": "Tests cover one cycle of three fields; which cycles are left depends on how requirements cross between partitions.", "anchors": [{"file": "crates/engine/query-solver/src/post_process/partition_cycles.rs", "symbols": ["split_query_partition_dependency_cycles"]}, {"file": "crates/engine/query-solver/src/post_process/root_typename.rs", "symbols": ["assign_root_typename_fields"]}, {"file": "crates/engine/query-solver/src/post_process/mutation_order.rs", "symbols": ["ensure_mutation_execution_order"]}, {"file": "crates/engine/query-solver/src/post_process/mod.rs", "symbols": ["post_process"]}]}
{"id": "C79", "title": "The keys of fields in requests to subgraphs", "statement": "Fields that would be in conflict in the query of a subgraph are renamed there: fields whose type is another one in the subgraph, below a type that may be several objects, and fields the client calls `__typename`. Two fields of the client then have the same key exactly when they were renamed for the same reason (same key and definition, or same output type), or neither was renamed and the client gave them the same key. The client's own keys are not changed. Each field that is added gets a key no other field of its selection set has, and fields with one key have the same arguments and types. Keys are always found.", "quantifier": "for all schemas, operations, selection sets (any number, in any order), fields and subgraphs", "why_tests_cant": "Tests look at a handful of snapshots; conflicts depend on the names all fields of an operation happen to have.", "anchors": [{"file": "crates/engine/query-solver/src/post_process/response_key.rs", "symbols": ["adjust_response_keys_to_avoid_collisions", "generate_new_key"]}, {"file": "crates/engine/src/prepare/cached/builder/query_partition.rs", "symbols": ["subgraph_key"]}]}
{"id": "C80", "title": "Requirements of the planner's search", "statement": "When planning ends with a plan, the plan is a tree from the root that contains the leaves of the operation and, with each node or edge, all nodes it requires (directly or through other requirements); the extra fields of the solution space are exactly those required by nodes and edges of the plan, and no node was sought that neither the operation nor a requirement asks for. Only weights of edges with requirements change: back to their own weight once they are in the plan's group, or to their own weight plus that of a way to what is still missing. If everything is reachable, planning ends with a plan.", "quantifier": "for all graphs, roots, terminals, requirements (any number, dependent on each other), orders of a queue, and limits", "why_tests_cant": "The loop interleaves searches, re-weighting and growth of the terminals; which requirement is met when depends on the whole graph, and the failures need two requirements of different size or a required node on a forced edge.", "anchors": [{"file": "crates/engine/query-solver/src/solve/updater.rs", "symbols": ["run_fixed_point_weight", "generate_weight_updates_based_on_requirements", "estimate_requirements_weight", "extend_terminals"]}, {"file": "crates/engine/query-solver/src/solve/solver.rs", "symbols": ["Solver", "execute"]}, {"file": "crates/engine/query-solver/src/solve/input/mod.rs", "symbols": ["RequirementsByEdge"]}]}
{"id": "C81", "title": "A websocket connection of a client", "statement": "No operation is executed and no answer sent before the connection is acknowledged, which happens once, for a session that was created after an initialisation. What the client gets of an operation are its responses in order and then one completion; nothing is lost or repeated while the socket takes messages. The operations executed are those of the subscribe events whose id is not in use; another closes the connection (4409), as a second initialisation does (4429). At most one operation of an id runs; after the client completes it, or the connection ends, it is aborted and once dropped sends nothing. Nothing follows a close frame.", "quantifier": "for all sequences of received messages, timeouts, responses and ends of the streams, sends that succeed or fail, and all interleavings of the tasks", "why_tests_cant": "The order in which the loop, the task that sends and the tasks of operations run is up to the scheduler, and a full queue is needed for some orders; tests run one conversation in one order.", "anchors": [{"file": "crates/federated-server/src/router/graphql/ws/accepter.rs", "symbols": ["websocket_loop", "handle_incoming_event", "subscription_loop", "accept_websocket", "recv_message"]}, {"file": "crates/engine/src/engine.rs", "symbols": ["WebsocketSession"]}, {"file": "crates/engine/src/websocket.rs", "symbols": ["Event", "Message"]}]}
{"id": "C82", "title": "What has to happen before an operation is executed over HTTP", "statement": "An operation of an HTTP request is executed only after the request has passed the CSRF check, the request hook, the authentication, the contract lookup, the limiter and the reader of the body, with the token that the authentication gave, and only if the operation was prepared, a mutation came by POST (and, over MCP, mutations are enabled) and a subscription is asked for as a stream; batches only if enabled and within their limit. Conversely all such operations are executed once and in order, unless the timeout fires, and each of a batch gets its answer at its place. A request a browser may send across origins without a preflight never executes a mutation. The hook, authentication, contract, limiter and reader each happen at most once and in this order; every request is answered.", "quantifier": "for all requests, configurations, and all answers of hooks, authentication, contracts, limiter, readers, preparation, execution and timeouts", "why_tests_cant": "Tests check single refusals; that no combination of headers, hooks, formats, batches and timeouts leads around a check needs all of them.", "anchors": [{"file": "crates/federated-server/src/router/layers/extension.rs", "symbols": ["default_authentication_behavior", "on_request"]}, {"file": "crates/federated-server/src/router/layers/csrf.rs", "symbols": ["CsrfLayer"]}, {"file": "crates/engine/src/engine.rs", "symbols": ["execute"]}, {"file": "crates/engine/src/execution/request/mod.rs", "symbols": ["can_mutate"]}, {"file": "crates/engine/src/execution/request/well_formed_graphql_request.rs", "symbols": ["execute_well_formed_graphql_request"]}]}
{"id": "C83", "title": "Status and body of HTTP responses", "statement": "In application/graphql-response+json a request that was not executed has the 4xx or 5xx status of the gravest of its errors (request faults, then 403, 401, 429, 502, 504, 500), an executed one has 200; in the other formats both have 200; a refused one has the status it was refused with. A batch contains all responses in order, with the first 4xx, otherwise the last status that is not a success. A stream has the status of its first response and contains all responses up to the first that can not be written. The telemetry counts the errors by code.", "quantifier": "for all responses with fewer than 65536 errors, all batches and streams, all formats", "why_tests_cant": "The status is computed from the set of all codes of errors (2^17 of them) by way of counters; tests use one or two codes.", "anchors": [{"file": "crates/engine/src/graphql_over_http/response.rs", "symbols": ["compute_status_code", "batch", "from_complete_response_with_telemetry"]}, {"file": "crates/engine/error/src/code.rs", "symbols": ["into_http_status_code_with_priority", "ErrorCodeCounter"]}]}
{"id": "C84", "title": "Negotiation of formats", "statement": "Without the header Accept the answer is JSON; with it, its format is that of a supported media type of the header whose quality no other supported one exceeds, of equals the last; the request is refused with 406 exactly if none is supported. A body is read as JSON or CBOR only if its content type says so, so never with a type that a browser sends across origins without a preflight.", "quantifier": "for all headers, with any number of values, invalid types, parameters and qualities, and all texts as content type", "why_tests_cant": "Headers are texts of clients; tests cover a handful.", "anchors": [{"file": "crates/engine/src/graphql_over_http/format.rs", "symbols": ["extract_from"]}]}
{"id": "C85", "title": "The cache of operations is transparent", "statement": "After any history of requests, warmed operations, late or lost insertions and evictions, a request has the result it would have with an empty cache, if its key stands for one document that can be loaded and is within the limit of sizes. Whatever the history, what is prepared passed parsing and solving for a document that belonged to its key, the check of mutations, and the binding of variables, the limit of complexity and the planning for the variables and the context of this very request. Requests that fail leave the cache as it was.", "quantifier": "for all histories, schemas (all results of parser, solver, planner), keys, documents and variables", "why_tests_cant": "The two paths are separate code that has to stay the same in effect; tests run a request mostly once.", "anchors": [{"file": "crates/engine/src/prepare/mod.rs", "symbols": ["prepare_operation_inner", "warm_operation"]}, {"file": "crates/engine/src/prepare/with_cache.rs", "symbols": ["prepare_operation_with_cache"]}, {"file": "crates/engine/src/prepare/without_cache.rs", "symbols": ["prepare_operation_without_cache"]}]}
{"id": "C86", "title": "A bound operation is the operation of the document", "statement": "If an operation is bound without a diagnostic, then its vectors, read from the range of the root selection set, are one tree: the document with every field, type condition, argument (given, by default or left out, in the order of the definition) and condition resolved against the schema. Iterating over fields yields those of the tree with fragments expanded in place. Binding ends if no fragment contains itself, and what is bound is never larger than the document, however often fragments are spread; so with at most 65535 selections no id overflows.", "quantifier": "for all schemas with unique names of arguments, all documents, type conditions, directives and values", "why_tests_cant": "The tree is spread over six vectors that are filled depth first and share the sets of fragments; tests compare a few operations.", "anchors": [{"file": "crates/engine/operation/src/bind/operation.rs", "symbols": ["bind_selection_set", "bind_field", "bind_field_arguments_sorted", "bind_inline_fragment", "bind_fragment_spread", "bind_fragment", "bind_executable_directive"]}, {"file": "crates/engine/operation/src/model/selection_set.rs", "symbols": ["FieldsIterator"]}]}
{"id": "C87", "title": "Operations are accepted exactly if nothing is wrong at any position", "statement": "The positions of an operation are its selections with the type they are made in, reached through fields, inline fragments and spreads. Binding yields no diagnostic iff at no position something is wrong: an unknown or inaccessible field, a field of a union, a missing or superfluous selection set, an unknown, repeated, missing or ill-typed argument, an unknown fragment, an unknown, inaccessible, non-composite or disjoint type condition, @skip or @include without or with an ill-typed argument. Each diagnostic names a fault that there is at some position.", "quantifier": "for all schemas with unique names of arguments and types, and all documents, with errors at any number of positions", "why_tests_cant": "Fragments are checked once and remembered, errors suppress others, arguments are removed by swapping; a test has one error at a time.", "anchors": [{"file": "crates/engine/operation/src/bind/operation.rs", "symbols": ["bind_field", "bind_type_condition", "bind_fragment_spread", "bind_field_arguments_sorted", "bind_executable_directive"]}]}
{"id": "C88", "title": "The operation that is executed, and the check for introspection", "statement": "With a name the operation of this name is executed, without one the only operation; otherwise the request is refused for the right reason, and the lookup never panics. If introspection is disabled, a query is refused iff one of its root fields, directly or in fragments, is __schema or __type.", "quantifier": "for all documents, names and schemas", "why_tests_cant": "Root fields can hide in fragments at any depth; tests use plain ones.", "anchors": [{"file": "crates/engine/operation/src/parse/mod.rs", "symbols": ["parse_impl", "operation"]}, {"file": "crates/engine/operation/src/validation/after_binding.rs", "symbols": ["ensure_introspection_is_accepted"]}]}
{"id": "C89", "title": "The text sent to a subgraph is the operation meant", "statement": "The text built for a root query, mutation or subscription and for a query of entities is read back, by a lexer and a parser of the GraphQL grammar written without regard to the builder, as one operation: its kind, as variable definitions exactly the variables prepared with their types, in order, for entities one field _entities with the variable of the representations, and selection sets that are never empty.", "quantifier": "for all plans, names, types and values, schemas and subgraphs", "why_tests_cant": "The text is written piecewise into a buffer with blanks and braces decided by what has been written; tests compare some texts.", "anchors": [{"file": "crates/engine/src/resolver/graphql/request/prepare.rs", "symbols": ["write_selection_set", "write_field", "write_arguments", "write_operation_arguments_without_parenthesis", "PreparedGraphqlOperation", "PreparedFederationEntityOperation"]}]}
{"id": "C90", "title": "Every object a subgraph may answer with is asked for what was planned for it", "statement": "Whatever object the subgraph answers with at a position, the fields a GraphQL server collects for it there, by the type conditions the object satisfies in the subgraph, are __typename if required and then exactly the planned fields whose parent type has the object in the supergraph: once each, in order, with key, name and arguments; and so on below. If all interfaces are fully implemented, fragments are spread only where some object satisfies them.", "quantifier": "for all objects, interfaces and unions, implemented in the subgraph or not, and all plans of any depth", "why_tests_cant": "The builder distinguishes cases by what interfaces the subgraph implements fully, partly or not at all; tests have few of the combinations and look at texts.", "anchors": [{"file": "crates/engine/src/resolver/graphql/request/prepare.rs", "symbols": ["write_selection_set_fields", "write_type_condition_and_entity_fields", "write_field"]}, {"file": "crates/engine/schema/src/composite_type.rs", "symbols": ["is_fully_implemented_in_subgraph", "possible_types_include_in_subgraph"]}, {"file": "crates/engine/schema/src/builder/graph/directives/federation.rs", "symbols": ["add_not_fully_implemented_in"]}]}
{"id": "C91", "title": "Variables of a query to a subgraph", "statement": "Exactly the variables used are declared, once each, with the type of the client variable or of the argument; each stands for a value equal to that of the argument it is used for; generated names avoid all variables of the client and the search for one ends; the variables sent are those declared, with these values, save undefined ones. The variable of the representations is distinct from them unless a variable of the client is named like it.", "quantifier": "for all plans, client variables, values and equivalences of values", "why_tests_cant": "Variables are shared between arguments of equivalent values anywhere in the query; clashes need particular names.", "anchors": [{"file": "crates/engine/src/resolver/graphql/request/prepare.rs", "symbols": ["get_or_insert_var", "write_arguments", "QueryVariable"]}, {"file": "crates/engine/src/resolver/graphql/request/types.rs", "symbols": ["SubgraphVariables"]}]}
{"id": "C92", "title": "What subgraphs and extensions are sent of the response is what was required of it", "statement": "For requirements or a field set, what is serialized of a value is its JSON with, of every object, exactly the fields asked for, in that order, under the names of the schema, whatever their response keys; values hidden from the client are included; a field the object lacks is left out if the object is of another type, and is an error otherwise; the serialization never panics if the requirements have the fields of the set. The representation of an entity is its type name and all its required fields, and exactly the parents that have one are fetched, in order. Names are not repeated if none is asked for twice.", "quantifier": "for all responses, values hidden or not, requirements and field sets of any depth", "why_tests_cant": "Requirements and field sets are walked together by two indices, with cases for fragments of other types; tests have few types per position and no repeated fields.", "anchors": [{"file": "crates/engine/src/response/read/view/ser.rs", "symbols": ["WithExtraFields", "RequiredFieldSet", "ForFieldSet", "ForwardView"]}, {"file": "crates/engine/src/resolver/graphql/federation.rs", "symbols": ["build_executor", "entities_without_expected_requirements"]}, {"file": "crates/engine/src/response/value.rs", "symbols": ["find_by_response_key"]}]}
{"id": "C93", "title": "Values injected into arguments are those selected", "statement": "If an injection selects only what is required, and the requirements are ordered, the value serialized is the one the injection describes: selections step into fields, objects have their keys in order with the values selected, nested or default, keys whose field belongs to another type are left out, lists are taken element by element; an error is given if and only if there is no such value, and a panic only if an object is met where a value without fields is expected.", "quantifier": "for all responses, requirements and injections of any depth", "why_tests_cant": "The index into the requirements advances with the keys of the injected object; mistakes show only for particular orders of fields.", "anchors": [{"file": "crates/engine/src/response/read/view/ser.rs", "symbols": ["ForInjection", "ValueInjection"]}]}
{"id": "C94", "title": "Decisions of response authorization reach the client, and only the client", "statement": "For every target with objects of its type the extension hears, for each of them, what the response has for the directive, unaffected by earlier decisions. Exactly the objects it refuses, or all of them if it fails, are nulled in what the client gets: at the field if it may be null, else at the innermost position of the path of the object which may be, else the whole data; each with its error; all else is unchanged, and subgraphs and extensions read the same as before.", "quantifier": "for all extensions, targets, responses, and decisions naming existing objects and errors", "why_tests_cant": "Needs extensions, several targets and rules, positions inside each other, and reading of the store after values were hidden.", "anchors": [{"file": "crates/engine/src/execution/operation/response_modifier.rs", "symbols": ["execute_response_modifier"]}, {"file": "crates/engine/src/response/write/mod.rs", "symbols": ["propagate_null", "make_inacessible", "push_error"]}, {"file": "crates/engine/src/response/object_set.rs", "symbols": ["with_filtered_response_objects"]}]}
{"id": "C95", "title": "The arguments detected for a lookup are valid for the field", "statement": "When arguments are detected for a key of an entity on a @lookup field, what is stored determines them, and for every object or batch of objects having the key, with values of the types of its fields, they are written without an error or a panic; each argument written is one of the field, written once, with a value of its type (lists, nullability, input objects with all their required fields, one value for a oneof input object), and every required argument without default is there. What was stored before keeps its meaning, and a key for which nothing is detected leaves the selections unchanged.", "quantifier": "for all schemas, keys of any depth, arguments, single lookups and batches, responses and objects to look up", "why_tests_cant": "The outcome depends on the combination of names, types, nullability and lists of all arguments and key fields, recursively; a rolled back attempt only shows when another field of the same input object was matched before it.", "anchors": [{"file": "crates/engine/schema/src/builder/graph/directives/composite/injection/auto_detect.rs", "symbols": ["try_auto_detect_unique_injection", "try_auto_detect_input_object_injections", "can_inject_field_into_input"]}, {"file": "crates/engine/schema/src/builder/graph/selections.rs", "symbols": ["current_state", "reset", "push_key_value_injections"]}, {"file": "crates/engine/src/prepare/cached/query_plan/field/arguments.rs", "symbols": ["PlanFieldArgumentsBatchView", "ArgumentObject"]}]}
{"id": "C96", "title": "A field of the key goes to the argument it belongs to", "statement": "Whatever is detected gives every field of the key to some input, each input given a field of the key can take its type and either has its name or is the only one of its type, as is the field; in a single lookup no two arguments are given the same leaf, and an argument with the name of a leaf it can take is given that leaf. If there is an argument for every field of a flat, required key by its name and the other arguments are optional, the key is detected with exactly these; a key of one field goes to the only argument that can take it, in a batch or not.", "quantifier": "for all schemas, keys and arguments", "why_tests_cant": "Matching by unique type interacts with matching by name and with nullability: the first field that fits is taken, which may not be the one with the same name.", "anchors": [{"file": "crates/engine/schema/src/builder/graph/directives/composite/injection/auto_detect.rs", "symbols": ["try_auto_detect_unique_input_value_key_mapping", "try_auto_detect_arguments_injections", "try_auto_detect_oneof_input_object_with_single_key", "can_inject_field_into_input"]}]}
{"id": "C97", "title": "What is inaccessible hides what depends on it, and nothing else", "statement": "Propagating @inaccessible always ends. The result contains what was marked and is contained in the least set of definitions that has to be hidden: values that are internal or of a hidden type, fields and input objects with a hidden required value, fields of a hidden type, types without a visible part. What stays visible makes sense: a visible field has a visible type and its required arguments are visible, a visible type has a visible part. The two sets are equal if no enum or input object used by an input value loses its last part in the process. The flags of unions and interfaces say exactly whether a possible type is hidden.", "quantifier": "for all well-formed schemas and all sets of marked definitions", "why_tests_cant": "Hiding one definition cascades over fields, arguments, input objects, unions and interfaces in any order, with cycles; a test covers one cascade.", "anchors": [{"file": "crates/engine/schema/src/builder/graph/directives/common/mod.rs", "symbols": ["finalize_inaccessible"]}]}
{"id": "C98", "title": "A contract hides what its strongest decisions hide", "statement": "The decision about a definition is the strongest of the decisions about its directives, or the default, missing answers of the extension counting as -1; the order of the directives does not matter unless two decisions of equal strength are opposite. A part follows what it belongs to if that has a stronger decision. A definition is hidden if its decision is to hide it, unless some part of it is shown by a stronger decision.", "quantifier": "for all schemas, directives, answers of the extension and orders of the directives", "why_tests_cant": "Decisions travel down and up through types, fields and arguments in five plus three passes over signed bytes with a bit mask; the rule is about all combinations of strengths.", "anchors": [{"file": "crates/wasi-component-loader/src/extension/runtime/contracts.rs", "symbols": ["priority", "into_mutable_schema", "replace_if_higher_priority", "ingest"]}]}
{"id": "C99", "title": "A contract gives a usable schema with introspection", "statement": "Applying a contract always ends. Everything that Query.__schema and Query.__type lead to stays visible, as does Query, and the scalars of GraphQL unless unreachable types are hidden. Whatever the contract or @inaccessible hides otherwise is hidden, nothing else is but what depends on it or can not be reached, and the rest makes sense for clients. Hiding types that can not be reached leaves exactly the reachable ones, which stay reachable.", "quantifier": "for all well-formed schemas, decisions and settings of the contract", "why_tests_cant": "The walks over the schema go through cycles of types and interfaces; whether introspection survives any contract can not be sampled.", "anchors": [{"file": "crates/engine/schema/src/builder/mutable.rs", "symbols": ["finalize", "hide_unreachable_types", "mark_builtins_and_introspection_as_accessible", "update_graphql_endpoint", "update_inaccessible"]}, {"file": "crates/wasi-component-loader/src/extension/runtime/contracts.rs", "symbols": ["construct"]}]}
