{
 "claims": [
  {
   "property": "C01",
   "status": "proved",
   "theorems": [
    "C01_packed_values_distinct",
    "C01_wrapping_refines_type_reference"
   ],
   "note": "Refinement of the packed u16 to nested type references for every sequence of builder calls; panic exactly above ten levels."
  },
  {
   "property": "C02",
   "status": "proved",
   "theorems": [
    "C02_lenient_iff",
    "C02_lenient_partial_order"
   ],
   "note": ""
  },
  {
   "property": "C03",
   "status": "proved",
   "theorems": [
    "C03_display_injective",
    "C03_display_round_trip"
   ],
   "note": "Independent recursive-descent parser as specification."
  },
  {
   "property": "C04",
   "status": "partial",
   "theorems": [
    "C04_int_accepted_partial",
    "C04_int_exact_partial",
    "C04_int_max_float_rejected_refuted",
    "C04_int_value_changed_refuted"
   ],
   "note": "Accepted numbers not below -2^31 are exact; refuted for floats below -2^31 (saturate) and for 2147483647.0 (rejected)."
  },
  {
   "property": "C05",
   "status": "proved",
   "theorems": [
    "C05_coerced_values_conform",
    "C05_coercion_iff_spec",
    "C05_coercion_never_panics"
   ],
   "note": "Both directions against a relational specification, plus conformance and absence of panics, over arbitrary recursive input schemas."
  },
  {
   "property": "C06",
   "status": "partial",
   "theorems": [
    "C06_one_of_null_accepted_refuted",
    "C06_one_of_single_field_partial"
   ],
   "note": "Exactly one accessible field proved; refuted for null: {a: null} is accepted."
  },
  {
   "property": "C07",
   "status": "partial",
   "theorems": [
    "C07_eleven_levels_panic_refuted",
    "C07_list_default_adds_level_refuted",
    "C07_list_default_rejects_lists_refuted",
    "C07_variable_type_partial"
   ],
   "note": "Holds without a non-null default on a list and with at most ten levels; refuted otherwise (default adds a list level, eleven levels panic)."
  },
  {
   "property": "C08",
   "status": "proved",
   "theorems": [
    "C08_limit_error_is_accurate",
    "C08_limits_on_expanded_query"
   ],
   "note": "Accepted iff the fragment-expanded query is within every limit; errors name a limit that is really exceeded."
  },
  {
   "property": "C09",
   "status": "proved",
   "theorems": [
    "C09_acyclic_expands",
    "C09_check_terminates",
    "C09_cycle_reported_iff",
    "C09_fuel_irrelevant"
   ],
   "note": "Termination with a pigeonhole argument on the fragment stack; cycle and unknown-fragment answers characterised."
  },
  {
   "property": "C10",
   "status": "partial",
   "theorems": [
    "C10_bypass_needs_overflow",
    "C10_cost_modulo_2_64",
    "C10_limit_bounds_cost_partial",
    "C10_overflow_refuted"
   ],
   "note": "Computed cost proved equal to the exact cost modulo 2^64, so the limit holds when the exact cost is within [0, 2^64); refuted by a three-level query with client-chosen slicing arguments whose cost wraps to 0."
  },
  {
   "property": "C100",
   "status": "partial",
   "theorems": [
    "C100_answers",
    "C100_hidden",
    "C100_hidden_write",
    "C100_one_of_refuted",
    "C100_rebuild",
    "C100_rebuild_all",
    "C100_root_refuted"
   ],
   "note": "Proved: C100_answers, C100_hidden, C100_hidden_write, C100_rebuild, C100_rebuild_all. Partial, as the hypothesis that root types are visible is not ensured: a mutation root type whose fields are all inaccessible is named by the answer but is not among its types (C100_root_refuted). \"@oneOf\" is not shown at all (C100_one_of_refuted)."
  },
  {
   "property": "C101",
   "status": "partial",
   "theorems": [
    "C101_null_refuted",
    "C101_total",
    "C101_write"
   ],
   "note": "Proved: C101_total, C101_write. Partial: \"includeDeprecated: null\", a valid argument, makes the resolver panic (C101_null_refuted)."
  },
  {
   "property": "C102",
   "status": "partial",
   "theorems": [
    "C102_control_refuted",
    "C102_reads",
    "C102_strings"
   ],
   "note": "Proved: C102_reads, C102_strings (exactly which strings read back). Partial: control characters are written with decimal digits after \\u and read back as other characters (C102_control_refuted)."
  },
  {
   "property": "C103",
   "status": "proved",
   "theorems": [
    "C103_again",
    "C103_grammar",
    "C103_graphql_refuted",
    "C103_one",
    "C103_print"
   ],
   "note": "Proved: C103_grammar, C103_one, C103_print, C103_again. C103_graphql_refuted records that this grammar is narrower than GraphQL texts: commas are refused between fields, and fields need white space after a closing brace."
  },
  {
   "property": "C104",
   "status": "partial",
   "theorems": [
    "C104_alternatives",
    "C104_argument_refuted",
    "C104_defaults_refuted",
    "C104_list_refuted",
    "C104_names",
    "C104_nullable_refuted",
    "C104_object_refuted",
    "C104_path",
    "C104_target_fields",
    "C104_targets",
    "C104_valid"
   ],
   "note": "Proved: C104_targets, C104_target_fields (what may be named on the target side), C104_names, C104_path, C104_alternatives, C104_valid. Partial: the value of an accepted map is not always one the target takes; C104_valid has the conditions under which it is, and C104_nullable_refuted, C104_list_refuted, C104_object_refuted, C104_argument_refuted, C104_defaults_refuted are accepted maps without them."
  },
  {
   "property": "C105",
   "status": "proved",
   "theorems": [
    "C105_all",
    "C105_batch",
    "C105_required",
    "C105_written"
   ],
   "note": "Proved: C105_required, C105_all, C105_written (with C93_injected), C105_batch."
  },
  {
   "property": "C106",
   "status": "partial",
   "theorems": [
    "C106_meaning",
    "C106_quotes_refuted",
    "C106_raw_refuted",
    "C106_unique",
    "C106_url"
   ],
   "note": "Proved: C106_meaning, C106_unique, C106_url. Partial: between quotes of a JSON template a string value can end the string and become other elements (C106_quotes_refuted); triple braces are not escaped at all (C106_raw_refuted)."
  },
  {
   "property": "C107",
   "status": "partial",
   "theorems": [
    "C107_accepts",
    "C107_conforms",
    "C107_cycle_refuted",
    "C107_int_refuted",
    "C107_null_list_refuted",
    "C107_one",
    "C107_one_of_null_refuted"
   ],
   "note": "Proved: C107_accepts (both directions, with the exceptions stated in the specification), C107_one, C107_conforms. Partial: null is refused for nullable lists (C107_null_list_refuted), accepted in oneOf (C107_one_of_null_refuted), floats below the range of Int become its least value and 2147483647.0 is refused (C107_int_refuted), a default that needs itself overflows the stack (C107_cycle_refuted)."
  },
  {
   "property": "C108",
   "status": "partial",
   "theorems": [
    "C108_authorization",
    "C108_resolver",
    "C108_resolvers_refuted",
    "C108_stage",
    "C108_types_dropped_refuted",
    "C108_types_panic_refuted",
    "C108_types_partial",
    "C108_views"
   ],
   "note": "Proved: C108_stage, C108_views, C108_resolver, C108_authorization. Partial: on types only without arguments of the Query stage (C108_types_partial): with them the engine panics (C108_types_panic_refuted) or drops them (C108_types_dropped_refuted); subscription and new resolvers do not get all arguments (C108_resolvers_refuted)."
  },
  {
   "property": "C109",
   "status": "partial",
   "theorems": [
    "C109_accepted",
    "C109_cycle_refuted",
    "C109_entity_interface",
    "C109_exact",
    "C109_label_refuted",
    "C109_lower",
    "C109_missing_refuted",
    "C109_nobody",
    "C109_same_value_refuted",
    "C109_serves"
   ],
   "note": "Proved: C109_exact (what the engine keeps, for every field some definition of which stays), C109_serves and C109_lower (the subgraphs are those that serve it when overrides are not spelled like join__Graph values, e.g. contain a lower case letter), C109_nobody, C109_entity_interface, C109_accepted (what the diagnostics refuse). Partial: the statement fails when two subgraphs take the field from each other (C109_cycle_refuted), when the origin of an override is spelled like a join__Graph value (C109_label_refuted, C109_missing_refuted) and when two names share a value (C109_same_value_refuted)."
  },
  {
   "property": "C11",
   "status": "partial",
   "theorems": [
    "C11_all_fields_when_none_applies_refuted",
    "C11_expected_fields_partial",
    "C11_one_shape_per_type"
   ],
   "note": "Expected fields are exactly the applicable ones and each type is in at most one shape, with in-place compaction modelled; missing: selection sets none of whose fields applies to any possible type (refuted: every field is then expected on every object)."
  },
  {
   "property": "C110",
   "status": "partial",
   "theorems": [
    "C110_again_refuted",
    "C110_builtin_refuted",
    "C110_control_refuted",
    "C110_indent_refuted",
    "C110_literal",
    "C110_mcp_backslash_refuted",
    "C110_mcp_block",
    "C110_mcp_line",
    "C110_mcp_quotes_refuted",
    "C110_one_value",
    "C110_quotes_refuted",
    "C110_tidy",
    "C110_words"
   ],
   "note": "Proved: C110_words (descriptions without three quotes in a row end where they should and keep their visible characters), C110_tidy, C110_one_value, C110_literal (exactly the strings read back), C110_mcp_line, C110_mcp_block. Partial: three quotes in a description end it and what follows is read as definitions (C110_quotes_refuted); indentation and runs of empty lines are lost (C110_indent_refuted, C110_again_refuted); control characters are misread (C110_control_refuted); the description of a built-in scalar goes to the next definition (C110_builtin_refuted); backslashes and quotes in MCP descriptions (C110_mcp_backslash_refuted, C110_mcp_quotes_refuted)."
  },
  {
   "property": "C111",
   "status": "partial",
   "theorems": [
    "C111_cycle_refuted",
    "C111_ex",
    "C111_exact",
    "C111_int_refuted",
    "C111_one_of_null_refuted",
    "C111_order",
    "C111_order_refuted",
    "C111_refused_refuted",
    "C111_types"
   ],
   "note": "Proved: C111_exact and C111_order (no default value stands where an input object contains itself), C111_types (every schema, every order, and that the walk ends). Partial: with a default value on a field through which an input object contains itself, what is stored depends on the order (C111_order_refuted), a valid schema may be refused (C111_refused_refuted), and a default value that contains itself is accepted, cut off (C111_cycle_refuted); null is accepted in a oneOf (C111_one_of_null_refuted) and large negative floats become the smallest Int (C111_int_refuted)."
  },
  {
   "property": "C112",
   "status": "partial",
   "theorems": [
    "C112_delivery",
    "C112_ends",
    "C112_error_refuted",
    "C112_exact",
    "C112_extension_refuted",
    "C112_key",
    "C112_old_dead_refuted",
    "C112_old_error_refuted",
    "C112_old_lost_refuted",
    "C112_old_shared_refuted",
    "C112_shared",
    "C112_shared_refuted",
    "C112_single",
    "C112_stops"
   ],
   "note": "Proved for the current interface of extensions: C112_delivery, C112_exact, C112_ends, C112_key, C112_single, C112_shared, C112_stops. Partial: the map is shared by all extensions and keyed by what the guest returns, so two extensions that choose the same key share one stream (C112_extension_refuted); who comes between the error and the removal of the entry is not told of the error (C112_error_refuted); who comes between a failed send and the removal does not share with later clients (C112_shared_refuted). For older extensions: an entry stays forever if resolve_subscription fails and its clients wait forever (C112_old_dead_refuted), a task removes the entry of another (C112_old_shared_refuted), errors are not passed on (C112_old_error_refuted), the rest of a batch is lost (C112_old_lost_refuted)."
  },
  {
   "property": "C113",
   "status": "partial",
   "theorems": [
    "C113_cached_refuted",
    "C113_herd_refuted",
    "C113_late_refuted",
    "C113_leaders",
    "C113_quiet",
    "C113_served",
    "C113_stale_refuted",
    "C113_timeout_refuted",
    "C113_told",
    "C113_value",
    "C113_waits"
   ],
   "note": "Proved: C113_value, C113_leaders, C113_quiet, C113_told, C113_served, C113_waits. Partial: a caller may be told to compute a value that is in the cache (C113_cached_refuted, inserted between the two looks); a caller that waited comes back without the value though it is in the cache and nobody timed out (C113_late_refuted, enqueued after the last try_recv); the time out of one caller drops the list of all (C113_timeout_refuted, C113_herd_refuted); a removed value is given to a caller that came after the removal (C113_stale_refuted)."
  },
  {
   "property": "C114",
   "status": "partial",
   "theorems": [
    "C114_bound",
    "C114_done",
    "C114_dropped",
    "C114_healthy",
    "C114_joined_refuted",
    "C114_kept",
    "C114_old_endless_refuted",
    "C114_old_refuted",
    "C114_once",
    "C114_one",
    "C114_revived_refuted",
    "C114_starved_refuted"
   ],
   "note": "Proved: C114_healthy (under what wasmtime guarantees: a guest that was left in the middle of a call is never entered again), C114_one, C114_bound, C114_kept, C114_once, C114_done, C114_dropped. Partial: without this guarantee a success of drop_subscription clears the mark of an earlier trap (C114_revived_refuted); who joins a shared subscription, and every subscription of an older extension, costs an instance though nothing failed (C114_joined_refuted, C114_old_refuted); a subscription of an older extension whose guest has trapped reports errors without end (C114_old_endless_refuted); open subscriptions use up the pool, and then every other use of the extension waits (C114_starved_refuted, for every size)."
  },
  {
   "property": "C115",
   "status": "partial",
   "theorems": [
    "C115_config",
    "C115_config_refuted",
    "C115_current",
    "C115_file",
    "C115_limits",
    "C115_limits_refuted",
    "C115_lost_refuted",
    "C115_missed_refuted",
    "C115_pairs",
    "C115_settled",
    "C115_single",
    "C115_stale_refuted",
    "C115_unread_refuted",
    "C115_warm",
    "C115_warm_refuted"
   ],
   "note": "Proved: C115_pairs and C115_single (every interleaving), C115_current and C115_settled (tasks that are given up stop at once), C115_file and C115_config (what the file and the configuration have is served once all is calm), C115_limits and C115_warm (what happens with limits and warming, exactly). Partial: the first change of the configuration is swallowed (C115_config_refuted); a task that was given up but runs on serves an older engine last (C115_stale_refuted); a good schema followed by a bad one is never served (C115_lost_refuted); a write between the first reading and the first look at the time of the file is missed (C115_missed_refuted), as is one that once could not be read (C115_unread_refuted); limits are those of the file only for the first engine of the process (C115_limits_refuted); a share below 100 percent warms nothing (C115_warm_refuted)."
  },
  {
   "property": "C116",
   "status": "partial",
   "theorems": [
    "C116_alias_refuted",
    "C116_both_refuted",
    "C116_builtin",
    "C116_dropped",
    "C116_first_version",
    "C116_imported",
    "C116_last_rule_refuted",
    "C116_local",
    "C116_local_refuted",
    "C116_prefix_refuted",
    "C116_qualified",
    "C116_slash_refuted",
    "C116_sound",
    "C116_sound_qualified",
    "C116_type_refuted"
   ],
   "note": "Proved: C116_imported, C116_qualified, C116_builtin, C116_first_version, C116_sound, C116_sound_qualified, C116_local, and what happens with unknown prefixes (C116_dropped). Partial: an unknown prefix is dropped, so a directive of the subgraph itself is taken for one of federation (C116_prefix_refuted) or is unknown (C116_local_refuted); aliases with two underscores are not found (C116_alias_refuted); linking composite schemas turns the automatic imports on again (C116_both_refuted); imported directives stay available under the prefix (C116_last_rule_refuted); importing a type hides the directive of this name (C116_type_refuted); a slash at the end of the URL removes the prefix (C116_slash_refuted)."
  },
  {
   "property": "C117",
   "status": "partial",
   "theorems": [
    "C117_algorithm",
    "C117_body",
    "C117_body_refuted",
    "C117_exclude_refuted",
    "C117_fails",
    "C117_host",
    "C117_host_refuted",
    "C117_include_refuted",
    "C117_key",
    "C117_no_panic",
    "C117_panics",
    "C117_panics_refuted",
    "C117_several_values",
    "C117_several_values_refuted",
    "C117_signed",
    "C117_source",
    "C117_starts",
    "C117_subscriptions",
    "C117_subscriptions_refuted"
   ],
   "note": "Proved: C117_signed (every request over HTTP, with key, algorithm, covered components and parameters as configured), C117_starts, C117_key, C117_algorithm, C117_panics, C117_source, C117_fails, C117_no_panic, C117_body, C117_host, C117_several_values (where components must be distinct), C117_subscriptions. Partial: the list of included headers has no effect (C117_include_refuted); excluded headers must be written in lower case (C117_exclude_refuted); a signature says nothing about the body (C117_body_refuted) nor, by default, about the host (C117_host_refuted); requests with a header of several values are not sent (C117_several_values_refuted); subscriptions are not signed (C117_subscriptions_refuted); an Ed25519 key with parts of wrong lengths panics (C117_panics_refuted)."
  },
  {
   "property": "C118",
   "status": "partial",
   "theorems": [
    "C118_accept_invalid_refuted",
    "C118_client",
    "C118_starts",
    "C118_subscriptions",
    "C118_subscriptions_refuted"
   ],
   "note": "Proved: C118_client, C118_starts, C118_subscriptions. Partial: subscriptions are not sent with the client of their subgraph (C118_subscriptions_refuted); accept_invalid_certs has no effect if neither a root nor an identity is named (C118_accept_invalid_refuted)."
  },
  {
   "property": "C119",
   "status": "partial",
   "theorems": [
    "C119_anything",
    "C119_branch_refuted",
    "C119_client_refuted",
    "C119_distinct",
    "C119_distinct_refuted",
    "C119_document",
    "C119_escaped_refuted",
    "C119_graph",
    "C119_graph_refuted",
    "C119_hash",
    "C119_reaches"
   ],
   "note": "Proved: C119_document, C119_distinct and C119_hash (names that are plain: no slashes, percent signs or line ends, not one or two dots), C119_graph. Partial: identifiers of documents are chosen by clients and are not escaped: any client can have any document of any client in any branch (C119_reaches, C119_branch_refuted, C119_escaped_refuted), any object of the storage (C119_anything), names of clients likewise (C119_client_refuted); two identifiers may have one address (C119_distinct_refuted); branches of dots (C119_graph_refuted)."
  },
  {
   "property": "C12",
   "status": "partial",
   "theorems": [
    "C12_denial_accepted_iff_in_range",
    "C12_denial_reaches_fields",
    "C12_deny_all_reaches_fields",
    "C12_each_rule_asked_once_partial",
    "C12_each_rule_asked_once_refuted",
    "C12_skip_with_authorization_panics"
   ],
   "note": "Exactly-once, right owner and name, one call per extension, and denials reach exactly the fields of the denied rule, for any sort result; missing and refuted: an operation that also uses @skip/@include panics."
  },
  {
   "property": "C120",
   "status": "proved",
   "theorems": [
    "C120_catalog",
    "C120_gateway",
    "C120_listing",
    "C120_loads",
    "C120_no_panic",
    "C120_one_hooks",
    "C120_pools",
    "C120_unique"
   ],
   "note": "Proved: C120_catalog (every entry gives the extension of its name, from its directory or the greatest installed version that is accepted), C120_loads, C120_unique, C120_listing (the order of directory listings does not matter), C120_pools (permissions and settings), C120_gateway, C120_one_hooks, C120_no_panic. Versions without pre-release and build parts."
  },
  {
   "property": "C121",
   "status": "partial",
   "theorems": [
    "C121_asked",
    "C121_empty_list_refuted",
    "C121_layer",
    "C121_no_panic",
    "C121_reach",
    "C121_refusal",
    "C121_refused_credentials_refuted",
    "C121_response",
    "C121_token_order_refuted"
   ],
   "note": "Proved: C121_asked, C121_reach, C121_refusal, C121_response, C121_layer, C121_no_panic. Partial: with several tokens the faster extension decides (C121_token_order_refuted); a resource with an empty list of extensions is open (C121_empty_list_refuted); with an anonymous default, refused credentials and crashes go on as anonymous (C121_refused_credentials_refuted)."
  },
  {
   "property": "C122",
   "status": "partial",
   "theorems": [
    "C122_events_partial",
    "C122_events_refuted",
    "C122_filter",
    "C122_host_events",
    "C122_never",
    "C122_order"
   ],
   "note": "Proved: C122_filter, C122_host_events, C122_order, C122_events_partial (the events of extensions as well, for filters that want everything or not those of extensions). Partial: a filter with a list of types never gets an event of an extension, also if it names them (C122_never, C122_events_refuted)."
  },
  {
   "property": "C123",
   "status": "partial",
   "theorems": [
    "C123_batch",
    "C123_batch_roundtrip",
    "C123_extract",
    "C123_get",
    "C123_get_accepts",
    "C123_get_roundtrip_partial",
    "C123_null_extensions_refuted",
    "C123_operation_name_ignored",
    "C123_operation_name_refuted",
    "C123_post",
    "C123_post_accepts",
    "C123_post_roundtrip",
    "C123_query_string",
    "C123_sources"
   ],
   "note": "Proved: C123_post and C123_post_accepts (exactly the bodies that say a request are read, and as that request), C123_batch, C123_get and C123_get_accepts, C123_query_string, C123_post_roundtrip, C123_batch_roundtrip, C123_extract, C123_sources, C123_get_roundtrip_partial (with the parameter operation_name). Partial: by the specification the parameter is operationName, which is ignored, so a GET request that follows it never has an operation name (C123_operation_name_ignored, C123_operation_name_refuted); null is as good as absent for all members but extensions (C123_null_extensions_refuted). Sequences in the place of objects, which derived deserializers accept, are not modelled."
  },
  {
   "property": "C124",
   "status": "partial",
   "theorems": [
    "C124_any",
    "C124_authorization_refuted",
    "C124_csrf",
    "C124_csrf_accepts",
    "C124_default_starts",
    "C124_explicit",
    "C124_ipv6_other_refuted",
    "C124_ipv6_refuted",
    "C124_no_csrf_refuted",
    "C124_origin",
    "C124_preflight",
    "C124_preflight_rest",
    "C124_reading",
    "C124_starts",
    "C124_starts_refuted"
   ],
   "note": "Proved: C124_preflight (exactly the requests the configuration permits pass), C124_reading, C124_origin, C124_csrf and C124_csrf_accepts, C124_starts, C124_default_starts, C124_preflight_rest, C124_any, C124_explicit. Partial: origins with an IPv6 address are taken for patterns, so the listed origin is refused (C124_ipv6_refuted) and others are permitted (C124_ipv6_other_refuted); with all headers allowed a page still cannot send Authorization (C124_authorization_refuted); credentials with everything allowed, or names that are no header names, crash the gateway at the start (C124_starts_refuted); without the CSRF protection, requests of pages that are not permitted reach the graph (C124_no_csrf_refuted)."
  },
  {
   "property": "C125",
   "status": "partial",
   "theorems": [
    "C125_camel",
    "C125_collision_refuted",
    "C125_fields",
    "C125_letters",
    "C125_no_underscores",
    "C125_pascal",
    "C125_prefix_refuted",
    "C125_settles_partial",
    "C125_settles_refuted",
    "C125_shouty"
   ],
   "note": "Proved: C125_letters, C125_no_underscores, C125_shouty (enum values, exactly), C125_pascal and C125_camel (names of words with two letters are left alone), C125_settles_partial (suggestions for enum values are final), C125_fields. Partial: suggestions for types and fields with a word of one letter are warned about again (C125_settles_refuted); two fields can get one suggestion, which cannot be followed (C125_collision_refuted); prefixes need not be words (C125_prefix_refuted). Rules for deprecations and for prefixes of types are not modelled."
  },
  {
   "property": "C126",
   "status": "partial",
   "theorems": [
    "C126_backslash_refuted",
    "C126_block_partial",
    "C126_block_quotes_refuted",
    "C126_injection_refuted",
    "C126_line_partial",
    "C126_quoted_partial",
    "C126_quoted_refuted"
   ],
   "note": "Proved: C126_quoted_partial (addresses without control characters above 10, or with those that have an escape), C126_line_partial (descriptions of one line without backslashes and without white space at the end), C126_block_partial (descriptions of several lines without quotes). Partial: control characters are written with their code in decimal and are read as others (C126_quoted_refuted); backslashes in descriptions of one line are not escaped, so the value is another or there is none (C126_backslash_refuted), or what follows is read as definitions of the schema (C126_injection_refuted); in block strings each quote is read with a backslash (C126_block_quotes_refuted). White space at the end of lines is dropped by design."
  },
  {
   "property": "C13",
   "status": "partial",
   "theorems": [
    "C13_first_candidate_decides",
    "C13_included_field_lost_refuted",
    "C13_skip_include_partial",
    "C13_skipped_field_expected_refuted"
   ],
   "note": "Whole chain from selection sets to response keys, with breadth-first merging; correct when the candidates for a key agree; refuted otherwise: a skipped first occurrence hides a later included one, and fields under a skipped occurrence are expected when another occurrence is included."
  },
  {
   "property": "C14",
   "status": "partial",
   "theorems": [
    "C14_denied_field_requested_iff_needed",
    "C14_derive_chain_refuted",
    "C14_requested_fields_partial",
    "C14_terminates_refuted"
   ],
   "note": "Termination and exactness (fields of the response that are not denied, plus the least set of needed fields) for acyclic requirements; refuted: cyclic requirements make the loop run forever, a field derived from a derived field does not get its source requested."
  },
  {
   "property": "C15",
   "status": "partial",
   "theorems": [
    "C15_marked_iff_denied_partial",
    "C15_merged_denied_field_refuted"
   ],
   "note": "Shape numbering, counting sort and linear scan proved end to end: marked iff the object uses a denied field; refuted for a denied field merged under a response key after another one."
  },
  {
   "property": "C16",
   "status": "proved",
   "theorems": [
    "C16_complete",
    "C16_scheduling",
    "C16_skipped_dependency_refuted",
    "C16_subscription_event"
   ],
   "note": "For every order of completions and every choice of failures: no counter underflow, at most one turn, only after every dependency finished and as soon as they are; answers follow requests once. When its turn comes a plan starts iff it has parent objects; C16_skipped_dependency_refuted records that a plan that had none is never 'finished', so what depends on it does not run."
  },
  {
   "property": "C17",
   "status": "proved",
   "theorems": [
    "C17_failed_request_skips_rest",
    "C17_serial"
   ],
   "note": "Both ordering passes and the scheduler composed, for every neighbour order of the graph and every completion order. Completed means succeeded: C17_failed_request_skips_rest records that after a failed request the later ones never run."
  },
  {
   "property": "C18",
   "status": "proved",
   "theorems": [
    "C18_all_delivered",
    "C18_can_finish",
    "C18_in_order"
   ],
   "note": "Every schedule of stream items, completions and sends; also that the loop can always finish."
  },
  {
   "property": "C19",
   "status": "partial",
   "theorems": [
    "C19_crash_refuted",
    "C19_data_conforms_partial",
    "C19_duplicate_keys_refuted",
    "C19_invalid_json_refuted"
   ],
   "note": "For the plans at the root of an operation, any shapes and any JSON that the reader gets through (proved: it fails only on invalid JSON, a __typename that isn't a string, or a list or object inside a list of non-null numbers) without duplicate keys: the data conforms, with null propagation into lists and objects of any depth. Missing: plans for nested objects, derived fields, non-object data for fields all nullable. Refuted: duplicate keys (required field missing, no error), invalid JSON (required field missing; crash inside a list of nullable elements)."
  },
  {
   "property": "C20",
   "status": "partial",
   "theorems": [
    "C20_any_answer_partial",
    "C20_errors_leave_a_trace_partial",
    "C20_invalid_json_refuted",
    "C20_low_int_refuted",
    "C20_null_data_refuted",
    "C20_valid_data_left_alone_partial"
   ],
   "note": "Same scope as C19, nothing inaccessible: no error implies the client receives exactly what the subgraphs returned; data that fits is passed on without error. For every answer but null (invalid JSON, lists, wrong types included), when all fields are for the client: no error implies it was an object that fits and is what the client receives. Refuted: null for the whole data, invalid JSON in a field that isn't for the client, and floats below -2^31 for an Int leave no trace."
  },
  {
   "property": "C21",
   "status": "partial",
   "theorems": [
    "C21_failed_fields_present_partial",
    "C21_failed_fields_present_refuted"
   ],
   "note": "Exact condition proved: the object is complete iff at most one default field comes after every field present (the values of the further ones are then pushed with the key of the first); refuted otherwise, e.g. two nullable root fields of a failed request: the first is sent twice, the second never."
  },
  {
   "property": "C22",
   "status": "partial",
   "theorems": [
    "C22_crash_iff_disagreement",
    "C22_merge_partial",
    "C22_merge_refuted"
   ],
   "note": "For disjoint trees: crashes iff a common field disagrees (refuted as 'never': object against null, or two scalars), otherwise every field of both is kept recursively and in order, and the client is sent exactly the merged tree; refuted: excess list elements of the second response are dropped, and a value hidden in the second response is shown when the first is not hidden."
  },
  {
   "property": "C23",
   "status": "partial",
   "theorems": [
    "C23_answers_cached_partial",
    "C23_answers_partial",
    "C23_attribution",
    "C23_error_paths",
    "C23_errors_after_data_refuted",
    "C23_errors_lost_refuted",
    "C23_forgotten_refuted",
    "C23_hits_dropped_refuted",
    "C23_not_asked_refuted",
    "C23_once_refuted",
    "C23_stored",
    "C23_updated_partial"
   ],
   "note": "For every response: data only comes from the element at the object's position among those asked for, or from the object's cache entry; what is stored for an entity is what was returned for it; errors are shown under the object at their position; every object is updated. For valid responses (too few and too many entities included) exactly one update each, of the expected kind. Missing and refuted: 'exactly one' for invalid responses (an unreadable element, unreadable errors after the data, objects that were not asked for when the request fails); an unreadable cache entry together with an unreadable response leaves objects without any update. Reading one element is an oracle here (see C19)."
  },
  {
   "property": "C24",
   "status": "partial",
   "theorems": [
    "C24_empty_name_depends_on_cache_refuted",
    "C24_empty_name_refuted",
    "C24_keys_partial",
    "C24_nul_name_refuted",
    "C24_own_text_partial"
   ],
   "note": "The bytes hashed into a key determine schema, name and document; and in every run of any number of gateways sharing a store a request with its own text executes that text. Missing and refuted: operation names with a NUL byte (nothing rejects them), and no name against the empty name, whose result depends on the cache. The digest is assumed collision-free on the operations of the run."
  },
  {
   "property": "C25",
   "status": "partial",
   "theorems": [
    "C25_entities_partial",
    "C25_kinds",
    "C25_root_requests",
    "C25_selection_refuted"
   ],
   "note": "Root requests: the bytes hashed determine subgraph, headers and body. Entities: exactly subgraph, headers and representation; refuted: the selected fields are not part of it, so a request for other fields of an entity takes the entry. Digest taken to be collision-free."
  },
  {
   "property": "C26",
   "status": "partial",
   "theorems": [
    "C26_age_refuted",
    "C26_crash_iff",
    "C26_forever_refuted",
    "C26_stored_iff_partial"
   ],
   "note": "Stored iff successful, not private, not no-store, and for max-age minus age, or the configured time; crashes characterised exactly. Refuted: an Age above max-age crashes, and so does a max-age too large for the clock."
  },
  {
   "property": "C27",
   "status": "proved",
   "theorems": [
    "C27_found",
    "C27_fresh",
    "C27_memory",
    "C27_prefixes",
    "C27_redis"
   ],
   "note": "Any history of writes, reads, evictions and clock advances, for the store in memory and the one in Redis; also that a value is found as long as it should be. Time is common to all gateways and Redis."
  },
  {
   "property": "C28",
   "status": "partial",
   "theorems": [
    "C28_found_was_inserted",
    "C28_hits",
    "C28_last_value_refuted",
    "C28_lengths_needed_refuted",
    "C28_transparent"
   ],
   "note": "Every value found was inserted under that very key, whatever the interleaving, prefixes and evictions; equal to an unbounded cache when a key is only ever given one value; refuted otherwise: a gateway goes on with an older value."
  },
  {
   "property": "C29",
   "status": "proved",
   "theorems": [
    "C29_trusted_text"
   ],
   "note": "For every history over any number of gateways and reloads, any interleaving, any operation name (even with NULs), a store that changes its answers. Assumes registered ids and clients have no NUL, and no digest collision among the operations of the run."
  },
  {
   "property": "C30",
   "status": "partial",
   "theorems": [
    "C30_hash_of_text_partial",
    "C30_nul_name_refuted"
   ],
   "note": "For every history, when the operation name has no NUL; refuted otherwise: after a query is registered, a request with another hash and another version executes it."
  },
  {
   "property": "C31",
   "status": "partial",
   "theorems": [
    "C31_memory_partial",
    "C31_memory_refuted",
    "C31_memory_unlimited",
    "C31_redis_partial",
    "C31_redis_pending_refuted",
    "C31_redis_short_refuted",
    "C31_reload_refuted"
   ],
   "note": "In memory: at most five times the limit in any window, for durations of whole seconds and limits between one and 10^9 per second, without reloads; refuted outside (durations below a second or fewer requests than seconds lead to no limit or other limits; a reload of the configuration starts counting anew). Redis: at most twice the limit plus the increments still on their way, for durations of at least a second and nothing lost; refuted for shorter durations and for pending increments. The floating point comparison is assumed exact enough not to accept above the limit."
  },
  {
   "property": "C32",
   "status": "proved",
   "theorems": [
    "C32_distinct",
    "C32_prefixes_refuted"
   ],
   "note": "Keys sharing a prefix differ whenever the limited key or the bucket differ, for every prefix and every (also hostile) subgraph name; C32_prefixes_refuted records that different prefixes may collide."
  },
  {
   "property": "C33",
   "status": "partial",
   "theorems": [
    "C33_accepted_lines_lost_refuted",
    "C33_age_partial",
    "C33_lines_partial",
    "C33_never_logs_again_refuted",
    "C33_nothing_lost_partial",
    "C33_restarts_refuted",
    "C33_same_millisecond_refuted",
    "C33_shutdown_never_waits",
    "C33_size",
    "C33_split_lines_refuted"
   ],
   "note": "For every history of writes (partial or failing ones included), failing rotations and restarts: nothing acknowledged is lost when no two files start in the same millisecond and the clock doesn't go backwards between files; no file grows past the size limit by more than one write; within a process a file past its age takes no more. Refuted: two rotations of files started in the same millisecond overwrite each other; restarts start the age anew; after a failed open nothing is ever logged again; lines accepted through the queue are lost when the process ends (shutdown never waits) and a line may be split across files."
  },
  {
   "property": "C34",
   "status": "partial",
   "theorems": [
    "C34_duplicate_refuted",
    "C34_pattern_refuted",
    "C34_protected_partial"
   ],
   "note": "Default rules, extension headers and subgraph rules composed, for every client and every rule list in which no pattern rule renames to a protected name and no rule duplicates a protected header; refuted for both of these."
  },
  {
   "property": "C35",
   "status": "proved",
   "theorems": [
    "C35_accepted",
    "C35_constructed_refuted",
    "C35_exact",
    "C35_injective",
    "C35_parse_print",
    "C35_print_parse",
    "C35_suggestion",
    "C35_suggestion_refuted"
   ],
   "note": "Text round trip to the byte; exactly the well-formed references survive; accepted texts characterised; the proposal in the error message is itself acceptable when there is a single slash. C35_constructed_refuted: references built with the constructors may print as another one."
  },
  {
   "property": "C36",
   "status": "partial",
   "theorems": [
    "C36_deterministic",
    "C36_errors",
    "C36_file",
    "C36_file_errors",
    "C36_plain",
    "C36_substitution",
    "C36_unknown_expression_refuted"
   ],
   "note": "Result characterised exactly by an independent reading of the text, for strings and whole configuration trees; errors name the reference and the place. Refuted part: an expression with a character outside [A-Za-z0-9_.] is not noticed and loaded as it stands."
  },
  {
   "property": "C37",
   "status": "partial",
   "theorems": [
    "C37_custom_scalar_big_int_refuted",
    "C37_custom_scalar_unchanged_partial"
   ],
   "note": "Holds when integers fit in 53 bits; refuted for larger integers, which are rounded to doubles."
  },
  {
   "property": "C38",
   "status": "partial",
   "theorems": [
    "C38_height_modulo_2_16",
    "C38_height_partial",
    "C38_height_wraps_refuted"
   ],
   "note": "Number of distinct field definitions, modulo 2^16 (the counter's width)."
  },
  {
   "property": "C39",
   "status": "partial",
   "theorems": [
    "C39_assumed_size_ignored_refuted",
    "C39_assumed_size_partial"
   ],
   "note": "Used when the annotation has no slicing arguments; refuted otherwise: with slicing arguments declared but absent the default size replaces the assumed size."
  },
  {
   "property": "C40",
   "status": "partial",
   "theorems": [
    "C40_intersection",
    "C40_subset_partial",
    "C40_subset_refuted"
   ],
   "note": "Intersection test exact; subset test complete but refuted for soundness ([1,5] is reported a subset of [1,2]); its only caller compares input types, which are never composite."
  },
  {
   "property": "C41",
   "status": "partial",
   "theorems": [
    "C41_sent_once_partial",
    "C41_sent_once_refuted",
    "C41_times_sent"
   ],
   "note": "Exact count: one request, except a field that directly follows a field of the same resolver in a later run of this resolver, which is sent in two requests (refuted: root fields of subgraphs A, B, A, A execute the last mutation twice)."
  },
  {
   "property": "C42",
   "status": "partial",
   "theorems": [
    "C42_mutations_refuted",
    "C42_own_answer",
    "C42_sent_partial"
   ],
   "note": "Proved when caching is off for the subgraph; with caching, what is shown is always the answer of the subgraph to the very same request, kept no longer than allowed. Refuted: with caching on, a second identical mutation within the time to live is answered from the cache and never executed."
  },
  {
   "property": "C43",
   "status": "proved",
   "theorems": [
    "C43_forwarded",
    "C43_origin",
    "C43_others",
    "C43_removed",
    "C43_removed_pattern"
   ],
   "note": "Every header has an origin in a rule and the value comes from client or configuration; forwarding by name gives exactly the client's values or the default; removed headers are gone; rules leave other headers alone."
  },
  {
   "property": "C44",
   "status": "proved",
   "theorems": [
    "C44_outline",
    "C44_private"
   ],
   "note": "Both directions, the second for documents as a parser returns them (names of the grammar, no empty selection sets). Booleans, enum values and the fields of input objects are part of the outline."
  },
  {
   "property": "C45",
   "status": "partial",
   "theorems": [
    "C45_dangling_refuted",
    "C45_error",
    "C45_fragments_partial",
    "C45_idempotent_refuted",
    "C45_kept",
    "C45_order_refuted",
    "C45_same_field_refuted",
    "C45_same_form_partial"
   ],
   "note": "Equivalence proved for documents with unique fragment names in which every reached fragment comes before those it spreads; whatever the order, operations are kept, unreached fragments dropped, and the error is returned exactly without an operation. Refuted otherwise: a fragment defined before its caller keeps aliases and literals, so the form depends on the order of definitions; a fragment still spread may be dropped; normalising twice may differ from once; two fields of the same name keep their order."
  },
  {
   "property": "C46",
   "status": "partial",
   "theorems": [
    "C46_headers_refuted",
    "C46_key",
    "C46_key_hash",
    "C46_leak_refuted",
    "C46_origin",
    "C46_other_headers_refuted",
    "C46_own",
    "C46_progress",
    "C46_single"
   ],
   "note": "For every interleaving, with headers compared as name directly followed by value, in any order: origin and freshness of answers, one request at a time, mutations on their own, and progress after any cancellations. Equal keys characterised exactly, and hashes agree. Refuted: name and value aren't separated in the key, so requests with different headers may share a response; the cell of dropped requests stays in the map."
  },
  {
   "property": "C47",
   "status": "proved",
   "theorems": [
    "C47_backoff",
    "C47_backoff_refuted",
    "C47_ends",
    "C47_ingested",
    "C47_once",
    "C47_retries"
   ],
   "note": "For all oracles; the number of attempts, withdrawals, deposits and the waiting times are exact. C47_backoff_refuted: the base of the waiting time overflows after 57 retries and is 0 after 64."
  },
  {
   "property": "C48",
   "status": "partial",
   "theorems": [
    "C48_cache",
    "C48_cache_off",
    "C48_disabled_cache_refuted",
    "C48_disabled_retry_refuted",
    "C48_enabled_cache_refuted",
    "C48_gateway_mutations_refuted",
    "C48_mutations",
    "C48_off",
    "C48_queries",
    "C48_timeout_refuted"
   ],
   "note": "What applies is characterised exactly for retries and caching; nothing is retried or cached when nothing asks for it; mutations only by the subgraph's own setting. Refuted: retries disabled for a subgraph are made; the gateway's setting to retry mutations has no effect; caching disabled for a subgraph is done when the gateway caches, and caching enabled for a subgraph without time to live isn't; the gateway's default timeout for subgraphs has no effect."
  },
  {
   "property": "C49",
   "status": "partial",
   "theorems": [
    "C49_all_used",
    "C49_argument_place_refuted",
    "C49_condition_weight_refuted",
    "C49_counts",
    "C49_cycles_refuted",
    "C49_default_reported",
    "C49_fragments_refuted",
    "C49_input_types",
    "C49_inputs_partial",
    "C49_interface_arguments_refuted",
    "C49_kinds_refuted",
    "C49_left_out_refuted",
    "C49_new_type_refuted",
    "C49_new_wrapping_refuted",
    "C49_no_operations",
    "C49_panics_refuted",
    "C49_precise",
    "C49_required_input_refuted",
    "C49_result_types",
    "C49_root_refuted",
    "C49_sound_partial",
    "C49_terminates",
    "C49_threshold",
    "C49_usage",
    "C49_wider_condition_refuted"
   ],
   "note": "Proved for all schemas and operations: what is counted and how often, thresholds, precision, comparison with everything used, termination for valid operations, result types; the used input types exactly. Soundness (C49_sound_partial, C49_inputs_partial) needs the documents to be comparable: no type changes its kind, interface fields have no arguments, arguments are either the same or keep their types, defaults are kept, fragments are spread on their own type. Each of these is needed: refuted are arguments of interface fields, type conditions of named fragments, conditions on a wider interface, kinds, arguments left out that get another type or wrapping, arguments that are looked up at the place of another, defaults of arguments left out, roots of which only __typename is asked. Also refuted: an argument added to a used interface field panics; fragments that use each other never end; a required input field is only a warning; a required input field with a default is an error; type conditions count as one whatever the number of requests."
  },
  {
   "property": "C50",
   "status": "partial",
   "theorems": [
    "C50_back",
    "C50_empty",
    "C50_exact",
    "C50_extension_refuted",
    "C50_input_default_refuted",
    "C50_order",
    "C50_same_name_refuted",
    "C50_self"
   ],
   "note": "Exact list, order, self, emptiness and opposite direction for all documents without double definitions (a type and its extension count as double). Refuted: default values of the fields of input objects are not compared; with an extension of a type only the interfaces of the last part count; a directive after a type of the same name makes the comparison panic."
  },
  {
   "property": "C51",
   "status": "partial",
   "theorems": [
    "C51_added_last_arg_refuted",
    "C51_arg_change_refuted",
    "C51_example_ok",
    "C51_input_default_refuted",
    "C51_interface_refuted",
    "C51_patch",
    "C51_schema_ext_refuted"
   ],
   "note": "Proved for all pairs of documents that the hypotheses name, from the sorted list of changes and the binary searches in it to the patched document. Refuted outside of them: changed types and default values of arguments are not applied; an argument added at the end runs into the next one and the result cannot be parsed; default values of the fields of input objects are dropped even by an empty patch; the removal of an interface is missed when a changed field sorts before it; removing one schema extension removes all. Assertions that only debug builds check are left out."
  },
  {
   "property": "C52",
   "status": "proved",
   "theorems": [
    "C52_changes",
    "C52_distinct",
    "C52_no_panic",
    "C52_ok",
    "C52_order",
    "C52_panic_refuted",
    "C52_parse",
    "C52_round_trip"
   ],
   "note": "Round trip, exact grammar, order and segments for all paths and texts; no text of ASCII characters panics. C52_panic_refuted: a name with a character of more than one byte before a bracket makes the parser slice inside of the character and panic."
  },
  {
   "property": "C53",
   "status": "partial",
   "theorems": [
    "C53_argument_partial",
    "C53_depth_refuted",
    "C53_input_field_partial",
    "C53_order",
    "C53_output_partial",
    "C53_which_depths",
    "C53_which_types"
   ],
   "note": "Exact for all types of equal nesting (input, output, arguments, order). C53_which_depths characterises which types of unequal nesting are composed all the same; C53_depth_refuted: a subgraph with `[Int]` and one with `Int` compose to `Int`, and a list that the first returns does not conform."
  },
  {
   "property": "C54",
   "status": "proved",
   "theorems": [
    "C54_conflict",
    "C54_fits",
    "C54_values"
   ],
   "note": "Exact values for each kind of use, the fit with subgraphs, and the conflict, for all lists of subgraphs in which the name is that of an enum everywhere."
  },
  {
   "property": "C55",
   "status": "partial",
   "theorems": [
    "C55_arguments_partial",
    "C55_defaults_refuted",
    "C55_depths_refuted",
    "C55_kinds_refuted",
    "C55_values_partial"
   ],
   "note": "Proved for all values and arguments under the stated hypotheses. They are needed: C55_kinds_refuted, C55_depths_refuted. C55_defaults_refuted: the default that the composed schema takes over need not be a value of its composed type. Not proved with entity interfaces."
  },
  {
   "property": "C56",
   "status": "partial",
   "theorems": [
    "C56_data_partial",
    "C56_kinds_refuted",
    "C56_roots_partial"
   ],
   "note": "Proved for all data under the stated hypotheses; C56_kinds_refuted shows that agreement on kinds is needed: of a union and an object of one name, the fields of the object vanish without a diagnostic. Not proved with entity interfaces."
  },
  {
   "property": "C57",
   "status": "partial",
   "theorems": [
    "C57_builtin_refuted",
    "C57_entity_interfaces_refuted",
    "C57_fields_partial",
    "C57_inputs_partial",
    "C57_kinds_refuted",
    "C57_members_partial",
    "C57_once_partial",
    "C57_roots_partial",
    "C57_roots_refuted",
    "C57_types_partial"
   ],
   "note": "Exact for all well-formed subgraphs that agree on kinds and have no entity interfaces (C57_once_partial: none redefines a scalar of the specification). Refuted outside: C57_kinds_refuted (the fields of an object vanish if an earlier subgraph has a union of the name), C57_entity_interfaces_refuted (an object gets a field twice, with two types), C57_roots_refuted (a root with its own name and a type named Query are mixed), C57_builtin_refuted."
  },
  {
   "property": "C58",
   "status": "partial",
   "theorems": [
    "C58_entity_interfaces_refuted",
    "C58_fields_partial",
    "C58_inputs_partial",
    "C58_permits_partial",
    "C58_scopes_refuted",
    "C58_types_partial",
    "C58_values_partial"
   ],
   "note": "Exact for all sites of well-formed subgraphs that agree on kinds and have no entity interfaces. C58_scopes_refuted: if two subgraphs name scopes, those of either are enough. C58_entity_interfaces_refuted: a field that objects get from an @interfaceObject loses all of its directives on the objects, also @authenticated."
  },
  {
   "property": "C59",
   "status": "partial",
   "theorems": [
    "C59_field_set_refuted",
    "C59_kinds_refuted",
    "C59_no_panic_partial",
    "C59_root_interface_refuted",
    "C59_root_refuted",
    "C59_undefined_refuted"
   ],
   "note": "Proved under the stated hypotheses. Panics otherwise: C59_undefined_refuted (a type that is not defined), C59_root_refuted (a root with its own name used as a type), C59_root_interface_refuted (such a root implements an interface), C59_field_set_refuted, C59_kinds_refuted (a name used for a scalar and for an implementer). Emission of the selections of keys, @requires and @provides is not modelled."
  },
  {
   "property": "C60",
   "status": "partial",
   "theorems": [
    "C60_arguments_refuted",
    "C60_closed",
    "C60_empty_input_refuted",
    "C60_field_types_refuted",
    "C60_interfaces_partial",
    "C60_one_of_refuted",
    "C60_positions_partial",
    "C60_transitive_refuted"
   ],
   "note": "C60_closed holds for all subgraphs; the rest for well-formed ones that agree on kinds, without entity interfaces. Not guaranteed, as the refutations show: types and arguments of the fields of implementers (C60_field_types_refuted, C60_arguments_refuted), interfaces of interfaces (C60_transitive_refuted), input objects have a field (C60_empty_input_refuted), @oneOf fields are nullable (C60_one_of_refuted)."
  },
  {
   "property": "C61",
   "status": "proved",
   "theorems": [
    "C61_accepted",
    "C61_exact"
   ],
   "note": "Proved both ways for all documents and options: what each of the 38 diagnostics stands for is defined on the document alone. Of a cycle one chain is reported per type, any of them counts. That validation ends is C64."
  },
  {
   "property": "C62",
   "status": "partial",
   "theorems": [
    "C62_enforced",
    "C62_refuted",
    "C62_unknown_refuted",
    "C62_without_extensions"
   ],
   "note": "C62_enforced and C62_without_extensions for the rules marked so. Refuted (C62_refuted) for every other rule, with an accepted document that breaks it: without extensions for names of directives, their arguments and the fields of input objects and interfaces (uniqueness, reserved names), undefined and self-referring directives, an interface that implements itself, a missing query root, directives on scalars and on arguments of directives, redefined scalars; with extensions for roots, all checks of fields that an extension adds to interfaces and input objects, and what interfaces ask of implementers. C62_unknown_refuted: with the default options also types that are only extended."
  },
  {
   "property": "C63",
   "status": "partial",
   "theorems": [
    "C63_accepts_partial",
    "C63_borrowed_default_refuted",
    "C63_defaulted_argument_refuted",
    "C63_extended_subtype_refuted"
   ],
   "note": "C63_accepts_partial: for documents without extensions, where no operation's root is the default type of another one and additional arguments of implementers are nullable. Refuted otherwise: C63_borrowed_default_refuted (`schema { query: Mutation }`), C63_defaulted_argument_refuted (an additional non-null argument with a default), C63_extended_subtype_refuted (a field whose type implements an interface by extension)."
  },
  {
   "property": "C64",
   "status": "partial",
   "theorems": [
    "C64_no_panic",
    "C64_panics",
    "C64_refuted"
   ],
   "note": "C64_panics says exactly which documents make it panic: those where extensions of a defined enum name a value twice among them. C64_refuted is one; C64_no_panic: enums with unique values suffice."
  },
  {
   "property": "C65",
   "status": "partial",
   "theorems": [
    "C65_accepted",
    "C65_extensions_refuted",
    "C65_reported"
   ],
   "note": "Values are finite trees with defaults filled in. C65_extensions_refuted: a cycle through a field that an extension adds is accepted."
  },
  {
   "property": "C66",
   "status": "partial",
   "theorems": [
    "C66_accepted_partial",
    "C66_directives_refuted",
    "C66_extended_refuted",
    "C66_fields_refuted",
    "C66_order"
   ],
   "note": "C66_order: for all documents in which names of types and directives are unique, objects and interfaces have no field twice, and (if unknown types may be extended) types that are only extended are so once. Each of these is needed: C66_directives_refuted, C66_fields_refuted, C66_extended_refuted."
  },
  {
   "property": "C67",
   "status": "partial",
   "theorems": [
    "C67_arguments_accepted_iff",
    "C67_custom_enum_refuted",
    "C67_default_accepted_iff",
    "C67_id_integer_refuted",
    "C67_int_from_float_refuted",
    "C67_one_of_null_refuted"
   ],
   "note": "Proved both ways for all literals. The rule differs from the GraphQL specification in these points: C67_int_from_float_refuted (2147483647.0 is refused for an Int, -10000000000.0 accepted), C67_one_of_null_refuted (a null field of a @oneOf object is accepted), C67_custom_enum_refuted (enum values are never accepted for a custom scalar), C67_id_integer_refuted (integers are refused for an ID)."
  },
  {
   "property": "C68",
   "status": "partial",
   "theorems": [
    "C68_arguments_meaning",
    "C68_default_json",
    "C68_int_value_changed_refuted",
    "C68_meaning_unique"
   ],
   "note": "Proved for all accepted arguments and unique. C68_int_value_changed_refuted: a number below the range of an Int is replaced by -2147483648."
  },
  {
   "property": "C69",
   "status": "partial",
   "theorems": [
    "C69_custom_array_refuted",
    "C69_sent_accepted_partial"
   ],
   "note": "C69_sent_accepted_partial: if no variable whose type is a custom scalar (and not a list) is given a list; C69_custom_array_refuted shows that this is needed. That defaults of the schema are values of their types is a hypothesis."
  },
  {
   "property": "C70",
   "status": "partial",
   "theorems": [
    "C70_condition_name_refuted",
    "C70_defaulted_place_refuted",
    "C70_operation_accepted_iff",
    "C70_rule_partial",
    "C70_single_for_list_refuted"
   ],
   "note": "Proved both ways. C70_defaulted_place_refuted and C70_single_for_list_refuted: the rule for the use of variables is not that of the specification, in both directions; C70_rule_partial says where they agree. C70_condition_name_refuted: the name of the argument of @skip and @include isn't looked at, nor are further ones. Selection sets are not modelled."
  },
  {
   "property": "C71",
   "status": "partial",
   "theorems": [
    "C71_inaccessible",
    "C71_null_for_default_refuted",
    "C71_variables_accepted_iff"
   ],
   "note": "Proved both ways. C71_null_for_default_refuted: null is refused for a nullable variable with a default, which the specification allows."
  },
  {
   "property": "C72",
   "status": "partial",
   "theorems": [
    "C72_custom_variable_panics",
    "C72_no_panic_refuted",
    "C72_panics_only"
   ],
   "note": "C72_panics_only; C72_custom_variable_panics shows that the second reason always panics at the first argument, C72_no_panic_refuted is an operation."
  },
  {
   "property": "C73",
   "status": "proved",
   "theorems": [
    "C73_run_once_ends",
    "C73_solution_is_tree"
   ],
   "note": "For every state that the search can be in; the order in which edges of equal time are taken is arbitrary. Times are exact fractions (f64 in the code); the walks over saturated edges are lists bounded by the number of edges."
  },
  {
   "property": "C74",
   "status": "proved",
   "theorems": [
    "C74_run_ends_iff",
    "C74_terminals"
   ],
   "note": "Both ways, for a search that starts with a new tree; ex_no_way, ex_heaviest and ex_root_terminal are searches that don't end."
  },
  {
   "property": "C75",
   "status": "proved",
   "theorems": [
    "C75_new_terminals",
    "C75_one_terminal_cheapest",
    "C75_one_terminal_cheapest_way",
    "C75_run_weight"
   ],
   "note": "The cheapest way is for one terminal, with exact times; ex_not_least shows that with several terminals the tree isn't the lightest (the algorithm doesn't promise it)."
  },
  {
   "property": "C76",
   "status": "partial",
   "theorems": [
    "C76_defaults_partial",
    "C76_external",
    "C76_input_defaults_refuted",
    "C76_overrides",
    "C76_sharing"
   ],
   "note": "C76_sharing, C76_overrides, C76_external and C76_defaults_partial are proved for the fields and arguments of objects and interfaces. C76_input_defaults_refuted: the fields of input objects with different defaults are composed, and the default of the second subgraph is lost."
  },
  {
   "property": "C77",
   "status": "partial",
   "theorems": [
    "C77_authorized",
    "C77_built",
    "C77_checked",
    "C77_cycle_refuted",
    "C77_failed_requirement_refuted",
    "C77_lookup_refuted",
    "C77_modifiers",
    "C77_mutations",
    "C77_order",
    "C77_plans",
    "C77_union",
    "C77_well_formed"
   ],
   "note": "Proved: what plans and rules wait for (C77_plans, C77_modifiers, C77_union), the order (C77_order), exactly when a rule is executed (C77_checked), and that everything is checked if no request fails and rules need no field of a later request (C77_authorized). Refuted: a protected field is sent unchecked if the request for what its rule needs fails (C77_failed_requirement_refuted), or, without any failure, if that request needs a field of the same partition (C77_cycle_refuted). C77_lookup_refuted: a lookup doesn't wait for what fields below it require."
  },
  {
   "property": "C78",
   "status": "partial",
   "theorems": [
    "C78_crossing_refuted",
    "C78_ends",
    "C78_kept",
    "C78_key_refuted",
    "C78_mutation_refuted",
    "C78_rings",
    "C78_separated",
    "C78_typename",
    "C78_unchanged"
   ],
   "note": "Proved for all well-formed graphs and all sorts: the loop ends (C78_ends), fields and requirements are kept, with new partitions only where two fields of one resolver need each other (C78_kept, C78_unchanged), fields of a partition do not need each other (C78_separated), any ring of partitions that is left passes through a partition by two unrelated fields (C78_rings), root typenames (C78_typename). Partial, as \"all fields can be requested\" is false: two partitions can wait for each other by crossing requirements (C78_crossing_refuted) or by the key of a partition (C78_key_refuted), and nothing is split below mutation fields other than the first of a request (C78_mutation_refuted); requests in such a ring are never sent."
  },
  {
   "property": "C79",
   "status": "partial",
   "theorems": [
    "C79_arguments_refuted",
    "C79_classes",
    "C79_client_keys",
    "C79_enough",
    "C79_extra_partial",
    "C79_panic_refuted",
    "C79_panics",
    "C79_sets_refuted",
    "C79_types_refuted"
   ],
   "note": "Proved: exactly when two fields of the client have the same key in the queries of subgraphs, over all selection sets (C79_classes), that the keys of the client stay (C79_client_keys), that an added field has a key of its own within its selection set unless an interface has a field of its name (C79_extra_partial), when generating a key panics (C79_panics) and that it does not with few fields (C79_enough). Partial, as the rest is false: an added field can get the key of a field with other arguments (C79_arguments_refuted), of another type in the subgraph (C79_types_refuted) or of another selection set that is merged with its own (C79_sets_refuted), so the subgraph refuses the query; 258 aliases of one field with another type in the subgraph are a panic (C79_panic_refuted)."
  },
  {
   "property": "C80",
   "status": "partial",
   "theorems": [
    "C80_edge_panics",
    "C80_edge_refuted",
    "C80_ends_partial",
    "C80_estimate_hangs",
    "C80_estimate_panics",
    "C80_fewer_refuted",
    "C80_parent_refuted",
    "C80_requirements",
    "C80_weights"
   ],
   "note": "Proved for every plan that is found: C80_requirements (tree, leaves, requirements met, exactly the extra fields needed) and C80_weights. C80_ends_partial: a plan is found if no requirement has missing nodes at a cost. Partial, as \"planning ends with a plan\" is false in general: an estimate that seeks fewer nodes than an earlier one panics (C80_estimate_panics, C80_fewer_refuted), a required node at the end of an unavoidable parent edge makes the search endless (C80_estimate_hangs, C80_parent_refuted), and a free requirement of an edge panics as soon as the edge is in the tree (C80_edge_panics, C80_edge_refuted)."
  },
  {
   "property": "C81",
   "status": "partial",
   "theorems": [
    "C81_ack",
    "C81_close",
    "C81_complete",
    "C81_error_refuted",
    "C81_executed",
    "C81_ids",
    "C81_invalid_refuted",
    "C81_ping_refuted",
    "C81_reuse_refuted",
    "C81_stale_refuted",
    "C81_streams"
   ],
   "note": "Proved for all interleavings: C81_ack, C81_streams, C81_ids, C81_executed, C81_complete, C81_close. Partial, as the protocol (graphql-transport-ws) is not followed everywhere: an id the server has completed can not be used again (C81_reuse_refuted), an error is followed by a completion (C81_error_refuted), an early ping is answered with a ping (C81_ping_refuted), texts that are not events are ignored or end the connection without a close frame (C81_invalid_refuted), and messages of a completed operation may follow a new subscription of its id (C81_stale_refuted)."
  },
  {
   "property": "C82",
   "status": "partial",
   "theorems": [
    "C82_all",
    "C82_answered",
    "C82_batch",
    "C82_csrf",
    "C82_empty_refuted",
    "C82_gate",
    "C82_limit_refuted",
    "C82_method",
    "C82_order",
    "C82_prefix",
    "C82_simple",
    "C82_timeout_refuted"
   ],
   "note": "Proved: C82_gate (soundness), C82_all and C82_prefix (exactly the ready operations, or the first of them if the timeout fires), C82_simple, C82_csrf, C82_order, C82_answered, C82_batch. Partial, as what one may also expect is false: the limiter counts a batch as one (C82_limit_refuted), a timeout hides executed mutations behind an answer with status 200 (C82_timeout_refuted), a subscription without events is an internal error (C82_empty_refuted)."
  },
  {
   "property": "C83",
   "status": "partial",
   "theorems": [
    "C83_batch",
    "C83_class",
    "C83_first_refuted",
    "C83_headers_refuted",
    "C83_refused_refuted",
    "C83_single",
    "C83_stream",
    "C83_telemetry",
    "C83_wrap_refuted"
   ],
   "note": "Proved: C83_single, C83_class, C83_batch, C83_telemetry, C83_stream. Partial: counters wrap, so 65536 errors of a code count as none (C83_wrap_refuted); extensions may refuse with status 200 (C83_refused_refuted); the headers of a refusal are lost in streams and batches (C83_headers_refuted); the first 4xx of a batch hides a later 401 (C83_first_refuted)."
  },
  {
   "property": "C84",
   "status": "partial",
   "theorems": [
    "C84_best",
    "C84_content",
    "C84_content_refuted",
    "C84_missing",
    "C84_nan_refuted",
    "C84_plain",
    "C84_refused",
    "C84_websocket",
    "C84_wildcard_refuted",
    "C84_zero_refuted"
   ],
   "note": "Proved: C84_missing, C84_best, C84_refused, C84_websocket, C84_content, C84_plain. Partial with respect to RFC 9110: a quality of zero does not exclude a type (C84_zero_refuted), wildcards override exclusions (C84_wildcard_refuted), \"nan\" beats all qualities (C84_nan_refuted), content types in upper case or with a blank before the semicolon are refused (C84_content_refuted). The parser of media types is an oracle."
  },
  {
   "property": "C85",
   "status": "partial",
   "theorems": [
    "C85_checked",
    "C85_failed",
    "C85_hit",
    "C85_size_refuted",
    "C85_transparent",
    "C85_withdrawn_refuted"
   ],
   "note": "Proved: C85_transparent, C85_checked, C85_failed, C85_hit. Without the hypotheses on size and loading it is false: a warmed document may exceed the limit (C85_size_refuted), a withdrawn trusted document is still executed from the cache (C85_withdrawn_refuted)."
  },
  {
   "property": "C86",
   "status": "partial",
   "theorems": [
    "C86_ends",
    "C86_fields",
    "C86_fits",
    "C86_many_refuted",
    "C86_size",
    "C86_tree"
   ],
   "note": "Proved: C86_tree, C86_fields, C86_ends, C86_size, C86_fits. Partial, as a valid operation with more than 65535 selections of a kind makes the server panic (C86_many_refuted)."
  },
  {
   "property": "C87",
   "status": "partial",
   "theorems": [
    "C87_accepts",
    "C87_blames",
    "C87_directives_refuted",
    "C87_fragments_refuted",
    "C87_inaccessible",
    "C87_merge_refuted",
    "C87_typename_refuted"
   ],
   "note": "Proved both ways: C87_accepts, C87_blames, C87_inaccessible. The rules are not all of the GraphQL specification: different fields may share a key (C87_merge_refuted), __typename may have arguments and a selection set (C87_typename_refuted), directives may be unknown, repeated, or have arguments of any name (C87_directives_refuted), fragments may be unused, invalid if unused, and have the same name (C87_fragments_refuted)."
  },
  {
   "property": "C88",
   "status": "partial",
   "theorems": [
    "C88_introspection",
    "C88_mutation_refuted",
    "C88_nested_refuted",
    "C88_operation"
   ],
   "note": "Proved: C88_operation, C88_introspection. Fields below the root are not looked at, nor mutations: with a field of type Query the schema can be asked for although introspection is disabled (C88_nested_refuted, C88_mutation_refuted)."
  },
  {
   "property": "C89",
   "status": "proved",
   "theorems": [
    "C89_entities",
    "C89_operation"
   ],
   "note": "C89_operation, C89_entities: parse (text) is the operation, for every plan with names that are GraphQL names."
  },
  {
   "property": "C90",
   "status": "partial",
   "theorems": [
    "C90_covariant_refuted",
    "C90_entities",
    "C90_entities_refuted",
    "C90_entity_spreads",
    "C90_interface_spread_refuted",
    "C90_object_spread_refuted",
    "C90_operation",
    "C90_spreads"
   ],
   "note": "Proved for plans as the planner should make them (hypothesis planned): C90_operation, C90_entities, C90_spreads, C90_entity_spreads. Partial, as with partly implemented interfaces fragments are spread where no object can satisfy them, which a server refuses as invalid (C90_object_spread_refuted, C90_interface_spread_refuted); entities of an interface not implemented by all its objects are not asked for its fields (C90_entities_refuted); and if the type of a field is an object in the subgraph and an interface in the supergraph, the object is asked for the fields of others (C90_covariant_refuted)."
  },
  {
   "property": "C91",
   "status": "partial",
   "theorems": [
    "C91_entities",
    "C91_entities_refuted",
    "C91_entities_sent",
    "C91_generated",
    "C91_injection_refuted",
    "C91_scoped",
    "C91_sent",
    "C91_type_refuted"
   ],
   "note": "Proved: C91_scoped, C91_entities, C91_generated, C91_sent, C91_entities_sent; values and types of the variables are part of C90 (asks_arg). Partial: a client variable named var1 clashes with the variable of the representations (C91_entities_refuted); a variable of type Int used for a list is declared as Int (C91_type_refuted); an injected value makes sending panic (C91_injection_refuted)."
  },
  {
   "property": "C92",
   "status": "partial",
   "theorems": [
    "C92_entities",
    "C92_field_set",
    "C92_field_set_refuted",
    "C92_names",
    "C92_names_refuted",
    "C92_representation",
    "C92_required"
   ],
   "note": "Proved: C92_required, C92_field_set, C92_representation, C92_entities, C92_names. Partial: with fragments of different types that share a response key a name is written twice (C92_names_refuted), and requirements that have a field twice can end in a panic (C92_field_set_refuted)."
  },
  {
   "property": "C93",
   "status": "partial",
   "theorems": [
    "C93_injected",
    "C93_uncovered_refuted"
   ],
   "note": "Proved: C93_injected. Partial, as the hypothesis that everything selected is required is left to the planner: without it a key is left out without an error, or the code panics (C93_uncovered_refuted)."
  },
  {
   "property": "C94",
   "status": "proved",
   "theorems": [
    "C94_fails_closed",
    "C94_out_of_range_refuted",
    "C94_refusals",
    "C94_same_reads"
   ],
   "note": "C94_refusals, C94_same_reads, C94_fails_closed, for responses that have the objects and positions of the targets (hypothesis ready). Decisions about objects that do not exist panic (C94_out_of_range_refuted)."
  },
  {
   "property": "C95",
   "status": "partial",
   "theorems": [
    "C95_lost_refuted",
    "C95_oneof_refuted",
    "C95_store",
    "C95_valid_partial"
   ],
   "note": "Proved: C95_valid_partial, C95_store. Partial: if several fields of a oneof input object compete for a key, a failing one drops the selections of one that matched (C95_lost_refuted); a oneof input object matched for a nested key field, or for a key that is null, is not valid (C95_oneof_refuted)."
  },
  {
   "property": "C96",
   "status": "partial",
   "theorems": [
    "C96_all_of_key",
    "C96_batch_twice_refuted",
    "C96_by_name",
    "C96_fair",
    "C96_name_refuted",
    "C96_oneof_ambiguous_refuted",
    "C96_only_one"
   ],
   "note": "Proved: C96_all_of_key, C96_fair, C96_by_name, C96_only_one. Partial: in a batch two arguments can be given the same key (C96_batch_twice_refuted); the last of two fields of a oneof input object that match is taken (C96_oneof_ambiguous_refuted); for objects an argument may be given another field than the one with its name (C96_name_refuted)."
  },
  {
   "property": "C97",
   "status": "partial",
   "theorems": [
    "C97_exact_partial",
    "C97_flags",
    "C97_nothing",
    "C97_sound",
    "C97_twice_refuted",
    "C97_usable",
    "C97_value_refuted"
   ],
   "note": "Proved: C97_sound, C97_usable, C97_nothing, C97_flags; C97_exact_partial gives equality with the least set if no input value has an enum or input object type that loses its last part in the process. In that case the value stays visible with a hidden type, and a required argument makes its field uncallable (C97_value_refuted); doing it again hides more (C97_twice_refuted)."
  },
  {
   "property": "C98",
   "status": "partial",
   "theorems": [
    "C98_decides",
    "C98_hides",
    "C98_order",
    "C98_order_refuted"
   ],
   "note": "Proved: C98_decides, C98_order, C98_hides. Partial: between directives of equal strength, one showing and one hiding a site, the order of a hash map decides (C98_order_refuted)."
  },
  {
   "property": "C99",
   "status": "partial",
   "theorems": [
    "C99_contract",
    "C99_endpoint_refuted",
    "C99_only",
    "C99_reach",
    "C99_unreachable_refuted"
   ],
   "note": "Proved: C99_contract, C99_only, C99_reach. Partial: types that only became unreachable when fields were hidden for their arguments stay visible (C99_unreachable_refuted); the endpoint of a subgraph is never changed, as only the url it already has is accepted (C99_endpoint_refuted)."
  }
 ]
}