{
 "claims": [
  {
   "property": "C01",
   "status": "proved",
   "theorems": [
    "C01_encode_is_rfc4648",
    "C01_roundtrip",
    "C01_length",
    "C01_injective"
   ],
   "note": "Encoder equals RFC 4648 for every byte sequence; decode of encode is the identity."
  },
  {
   "property": "C02",
   "status": "proved",
   "theorems": [
    "C02_decode_iff",
    "C02_decode_total",
    "C02_decode_alphabet",
    "C02_canonical_only_refuted"
   ],
   "note": "Exact acceptance set; decoder never reads out of range. Finding: non-canonical trailing bits are accepted (C02_canonical_only_refuted)."
  },
  {
   "property": "C03",
   "status": "partial",
   "theorems": [
    "C03_sorted_map_refines_finite_map",
    "C03_sorted_set_refines_finite_set",
    "C03_at",
    "C03_init_partial",
    "C03_init_duplicates_refuted",
    "C03_string_view_map"
   ],
   "note": "Every operation history refines a finite map. The initializer-list constructor is only a map when its keys are distinct (C03_init_partial, C03_init_duplicates_refuted)."
  },
  {
   "property": "C04",
   "status": "proved",
   "theorems": [
    "C04_strict_total_order",
    "C04_shorter_first"
   ],
   "note": ""
  },
  {
   "property": "C05",
   "status": "proved",
   "theorems": [
    "C05_unique_keys",
    "C05_emplace_back_present",
    "C05_emplace_back_absent",
    "C05_find",
    "C05_index",
    "C05_insertion_history",
    "C05_refines_abstract"
   ],
   "note": ""
  },
  {
   "property": "C06",
   "status": "partial",
   "theorems": [
    "C06_get_wrong_type_throws",
    "C06_get_right_type",
    "C06_set_then_get",
    "C06_set_iff_writable",
    "C06_release",
    "C06_release_throw_unchanged_refuted"
   ],
   "note": "Type safety of get, set and release. The sub-claim that a failed release leaves the value unchanged is false for release<IdType> on text that is not Base64 (C06_release_throw_unchanged_refuted)."
  },
  {
   "property": "C07",
   "status": "partial",
   "theorems": [
    "C07_reflexive_iff_no_nan",
    "C07_symmetric",
    "C07_transitive",
    "C07_same_type",
    "C07_observational",
    "C07_copy",
    "C07_copy_equal",
    "C07_copy_total_refuted"
   ],
   "note": "Equality is an equivalence exactly when no NaN occurs; copying a Scalar without value fails (C07_copy_total_refuted)."
  },
  {
   "property": "C08",
   "status": "proved",
   "theorems": [
    "C08_roundtrip",
    "C08_idempotent",
    "C08_key_order",
    "C08_write_fails_iff",
    "C08_all_strings_refuted"
   ],
   "note": "At the level of RapidJSON SAX events; RapidJSON contract in JSONSpec.v. Strings with embedded NUL are truncated (C08_all_strings_refuted)."
  },
  {
   "property": "C09",
   "status": "proved",
   "theorems": [
    "C09_denotes",
    "C09_total",
    "C09_prefixes_covered",
    "C09_ints_in_range",
    "C09_int_boundary",
    "C09_huge_int_becomes_float",
    "C09_duplicate_key_first",
    "C09_malformed_reported_refuted"
   ],
   "note": "No undefined behaviour for any callback sequence; malformed documents are not reported (C09_malformed_reported_refuted)."
  },
  {
   "property": "C10",
   "status": "partial",
   "theorems": [
    "C10_require_iff_coerces",
    "C10_require_total",
    "C10_find",
    "C10_error_label_partial",
    "C10_error_label_refuted"
   ],
   "note": "Exact equivalence with input coercion for nested input types; no undefined behaviour. The sub-claim that every failure is a schema_exception naming the argument is false (C10_error_label_refuted); the true part is C10_error_label_partial. Input types with defaults: see C41."
  },
  {
   "property": "C11",
   "status": "partial",
   "theorems": [
    "C11_field_dropped_partial",
    "C11_field_kept_partial",
    "C11_spread_dropped_partial",
    "C11_inline_dropped_partial",
    "C11_both_directives_refuted"
   ],
   "note": "Fields, spreads and inline fragments are dropped/kept as decided by one condition directive; with both @skip(if:false) and @include(if:false) the code ignores @include (C11_both_directives_refuted). Missing: the both-directives case, which is false of the code."
  },
  {
   "property": "C12",
   "status": "partial",
   "theorems": [
    "C12_result_keys_partial",
    "C12_result_keys_exact",
    "C12_skipped_key_refuted"
   ],
   "note": "Keys are exactly the first kept occurrences in document order when no response key has both kept and dropped occurrences; otherwise false of the code (C12_skipped_key_refuted); duplicates are not merged, only the first is executed. C12_result_keys_exact is unconditional."
  },
  {
   "property": "C13",
   "status": "partial",
   "theorems": [
    "C13_siblings",
    "C13_failed_field_partial",
    "C13_future_location_refuted"
   ],
   "note": "Siblings are unaffected and the failed field gets null and located errors for synchronous failures; errors of futures of objects have no location or path (C13_future_location_refuted)."
  },
  {
   "property": "C14",
   "status": "partial",
   "theorems": [
    "C14_lists_partial",
    "C14_failed_object_refuted",
    "C14_structured_error_path_refuted"
   ],
   "note": "Lists keep length and order when no element's object fails; a failing object element is dropped from the list (C14_failed_object_refuted)."
  },
  {
   "property": "C15",
   "status": "proved",
   "theorems": [
    "C15_spread_matching",
    "C15_spread_not_matching",
    "C15_inline_matching",
    "C15_inline_not_matching",
    "C15_unknown_fragment"
   ],
   "note": "Spreads and inline fragments are equivalent to their inlined selections, or to nothing, for accessors that ignore fragment directives."
  },
  {
   "property": "C16",
   "status": "proved",
   "theorems": [
    "C16_same_response",
    "C16_always_answers"
   ],
   "note": "For accessors whose answers depend on their inputs only: one response for all launch policies and schedules; bounded executions, no deadlock."
  },
  {
   "property": "C17",
   "status": "partial",
   "theorems": [
    "C17_root_order",
    "C17_one_schedule",
    "C17_serial_partial",
    "C17_deferred_refuted"
   ],
   "note": "Root order and a single schedule hold always; serial execution of sub-selections is proved for immediate answers and refuted for answers that are futures of objects (what generated code returns): C17_deferred_refuted."
  },
  {
   "property": "C18",
   "status": "partial",
   "theorems": [
    "C18_variables_partial",
    "C18_undeclared",
    "C18_fragment_directives_refuted"
   ],
   "note": "Every argument and directive value an accessor sees is evaluated in the operation's variables; false for the directives of fragment definitions (C18_fragment_directives_refuted)."
  },
  {
   "property": "C19",
   "status": "proved",
   "theorems": [
    "C19_executes_selected",
    "C19_missing",
    "C19_subscription",
    "C19_invalid"
   ],
   "note": "Selection by name, missing operation, subscription, invalid document."
  },
  {
   "property": "C20",
   "status": "proved",
   "theorems": [
    "C20_keys",
    "C20_delivery",
    "C20_recipients_determined",
    "C20_unsubscribed",
    "C20_unsubscribe_total",
    "C20_no_trace",
    "C20_delivered",
    "C20_key_reuse_refuted"
   ],
   "note": "Any history of subscribe, unsubscribe (both with and without notification) and deliver calls. made h < 2^64 is the number of subscriptions ever made (keys wrap otherwise). name <> \"\" excludes the pseudo event of C44_dropped_root_refuted. C20_key_reuse_refuted: keys are given out again after unsubscribe. Calls are atomic; calls into the Request from accessors or callbacks during deliver are not modelled."
  },
  {
   "property": "C21",
   "status": "proved",
   "theorems": [
    "C21_overloads",
    "C21_reached",
    "C21_document",
    "C21_no_object",
    "C21_unconditional_refuted",
    "C21_directive_refuted",
    "C21_json_string_refuted"
   ],
   "note": "C21_reached and C21_overloads give the exact set; C21_document the payload. Refuted readings of the docs: deliver(name, object) is not unconditional; deliver(name, arguments) never reaches a field with any directive; strings from JSON and from the application never match."
  },
  {
   "property": "C22",
   "status": "partial",
   "theorems": [
    "C22_history_independent_partial",
    "C22_refuted"
   ],
   "note": "History independence for all histories of documents whose operations have a root type in the schema. C22_refuted: after a document with an operation of an unsupported kind a valid document is rejected."
  },
  {
   "property": "C23",
   "status": "proved",
   "theorems": [
    "C23_variable_type",
    "C23_variable_usage"
   ],
   "note": "C23_variable_type is the type check for all types; C23_variable_usage is the end-to-end statement through the whole visitor for a one-argument field; for arbitrary documents the rule is part of C28_accepts_exactly_valid (value_ok, ok_var)."
  },
  {
   "property": "C24",
   "status": "partial",
   "theorems": [
    "C24_literal",
    "C24_nonnull",
    "C24_null",
    "C24_lists",
    "C24_enums",
    "C24_builtin_scalars",
    "C24_custom_scalars",
    "C24_input_objects",
    "C24_null_refuted",
    "C24_list_of_one_refuted",
    "C24_ids_refuted",
    "C24_undefined_variable_refuted"
   ],
   "note": "Acceptance of a literal is characterized exactly (C24_literal plus one theorem for each kind of type). The characterization differs from GraphQL coercion in the ways shown by the C24_..._refuted theorems."
  },
  {
   "property": "C25",
   "status": "partial",
   "theorems": [
    "C25_selections_partial",
    "C25_repeats",
    "C25_distinct_keys",
    "C25_fragments_partial",
    "C25_refuted"
   ],
   "note": "Full property when response keys are distinct (C25_distinct_keys) or the repeated fields have valid arguments and sub-selections (C25_repeats), otherwise for the first field of each key; C25_refuted shows the gap."
  },
  {
   "property": "C26",
   "status": "partial",
   "theorems": [
    "C26_execution_ends_partial",
    "C26_validation_ends",
    "C26_accepted_acyclic_partial",
    "C26_accepted_terminates_partial",
    "C26_validation_refuted"
   ],
   "note": "Validation always ends (C26_validation_ends); accepted documents whose repeated response keys are as repeats_ok says (repeated_fields_ok: repeated fields, which validation does not look into, have valid arguments and sub-selections; trivially so if response keys are distinct) have no fragment cycle and their execution ends; C26_validation_refuted: an accepted document with a fragment cycle whose execution does not end."
  },
  {
   "property": "C27",
   "status": "partial",
   "theorems": [
    "C27_directives_partial",
    "C27_field_directives",
    "C27_refuted"
   ],
   "note": "All except that a directive without an argument list is not checked for required arguments (C27_refuted). C27_field_directives is exact."
  },
  {
   "property": "C28",
   "status": "proved",
   "theorems": [
    "C28_accepts_exactly_valid",
    "C28_operation_rules",
    "C28_violations_reported",
    "C28_unused_fragments_refuted"
   ],
   "note": "C28_accepts_exactly_valid: validation of a fresh Request reports no error exactly for the documents that satisfy the declarative rules of ValidationSpec.v. C28_unused_fragments_refuted documents how \"unused\" is decided."
  },
  {
   "property": "C29",
   "status": "proved",
   "theorems": [
    "C29_interned",
    "C29_distinct",
    "C29_wrapper",
    "C29_bounded",
    "C29_no_race",
    "C29_defined",
    "C29_never_stuck",
    "C29_ends",
    "C29_answered"
   ],
   "note": "WrapType as a transition system over any number of threads, a readers/writer mutex per map and the vectors themselves: interned, distinct, bounded, no data race, iterators always valid, no deadlock, every call ends."
  },
  {
   "property": "C30",
   "status": "proved",
   "theorems": [
    "C30_types",
    "C30_lookup",
    "C30_lookup_unknown",
    "C30_lookup_defined",
    "C30_roots",
    "C30_made",
    "C30_identity",
    "C30_members",
    "C30_possible_types",
    "C30_wrap",
    "C30_references"
   ],
   "note": "Registry as a heap of type objects and the calls that build it; WrapType here sequential (C29 has the threads). Lifetimes of weak pointers are not modelled."
  },
  {
   "property": "C31",
   "status": "proved",
   "theorems": [
    "C31_objects",
    "C31_query_schema",
    "C31_query_type",
    "C31_unknown_type_refuted",
    "C31_standard_query",
    "C31_represented",
    "C31_complete_response"
   ],
   "note": "For every registry after any history of building calls that represents a schema S, every selection set on __schema, __type and the objects below it gives what the description of S (shows) gives, null where the specification asks for null, deprecated members only with includeDeprecated: true. The standard introspection query answers schema_json S, which determines S (C31_complete_response); every completely built registry represents some schema (C31_represented). Refuted part: __type of an unknown name also reports an error."
  },
  {
   "property": "C32",
   "status": "proved",
   "theorems": [
    "C32_round_trip",
    "C32_error_document_round_trip",
    "C32_error_members",
    "C32_path_order"
   ],
   "note": "Error documents and the client's parsing of them, for positions and indices below 2^31."
  },
  {
   "property": "C33",
   "status": "proved",
   "theorems": [
    "C33_variable_roundtrip",
    "C33_response_roundtrip",
    "C33_response_members",
    "C33_serialize_injective",
    "C33_shape_mismatch_refuted"
   ],
   "note": "Round trips for built-in scalars, IDs, enums, nested structs under all modifier stacks, directly and through JSON. Shape mismatches are not noticed by the client (C33_shape_mismatch_refuted)."
  },
  {
   "property": "C34",
   "status": "proved",
   "theorems": [
    "C34_order",
    "C34_total",
    "C34_cycle",
    "C34_loaded",
    "C34_recursive_refuted"
   ],
   "note": "C34_recursive_refuted: recursion through nullable or list fields, which GraphQL allows, is also reported as a cycle; the property counts every reference."
  },
  {
   "property": "C35",
   "status": "proved",
   "theorems": [
    "C35_modifiers",
    "C35_reading",
    "C35_distinct",
    "C35_introspection",
    "C35_input_cpp_type",
    "C35_output_cpp_type",
    "C35_cpp_types_functional"
   ],
   "note": "Modifier stacks, the introspection type expression and the C++ types of inputs and outputs."
  },
  {
   "property": "C36",
   "status": "proved",
   "theorems": [
    "C36_never_reserved",
    "C36_safe_unchanged",
    "C36_idempotent",
    "C36_exact",
    "C36_distinct_refuted"
   ],
   "note": "C36_distinct_refuted: distinct GraphQL names may get the same C++ name, and C++ keywords are not changed; the property does not promise either."
  },
  {
   "property": "C37",
   "status": "partial",
   "theorems": [
    "C37_quoted_exact",
    "C37_quoted_delivered",
    "C37_quoted_partial",
    "C37_escapes_refuted",
    "C37_escapes_example",
    "C37_block_delivered",
    "C37_block_value",
    "C37_block_partial",
    "C37_block_refuted"
   ],
   "note": "Quoted strings: proved for every spelling what is delivered, that this is the denoted text exactly if every escape is one of \\\" \\\\ \\/ (C37_quoted_exact), and refuted otherwise (escapes are delivered as the letter after the backslash). Block strings: delivered raw; equal to the specified value if there is nothing to remove; otherwise refuted. Fails for: other escapes, unicode escapes, indented block strings, escaped triple quotes."
  },
  {
   "property": "C38",
   "status": "proved",
   "theorems": [
    "C38_parse_total",
    "C38_parse_schema_total",
    "C38_parsed_readable",
    "C38_schema_readable"
   ],
   "note": "Parsing terminates with a tree or a parse_error for every text, for executable and schema documents; every tree of parseString has the children that the visitors of validation and execution read, and every tree of parseSchemaString those that SchemaLoader reads."
  },
  {
   "property": "C39",
   "status": "partial",
   "theorems": [
    "C39_document_shape_partial",
    "C39_errors_listed",
    "C39_exception_refuted"
   ],
   "note": "Every document returned has the shape; some requests throw out of the future instead (C39_exception_refuted)."
  },
  {
   "property": "C40",
   "status": "proved",
   "theorems": [
    "C40_arguments"
   ],
   "note": "Every accessor call of every execution is one the document asks for, with the values of its literals."
  },
  {
   "property": "C41",
   "status": "partial",
   "theorems": [
    "C41_default_when_absent_partial",
    "C41_given_value_used",
    "C41_nullable_default_refuted",
    "C41_invalid_value_reported_refuted"
   ],
   "note": "Defaults work for non-nullable types only (C41_default_when_absent_partial); refuted for nullable types and for invalid values."
  },
  {
   "property": "C42",
   "status": "partial",
   "theorems": [
    "C42_repeated_partial",
    "C42_other_request_refuted"
   ],
   "note": "Repeated validation with one Request; C42_other_request_refuted: the flag in the parsed document lets a document pass a Request for another schema without validation."
  },
  {
   "property": "C43",
   "status": "proved",
   "theorems": [
    "C43_subscribed",
    "C43_rejected",
    "C43_unsubscribed",
    "C43_unknown_key",
    "C43_calls",
    "C43_failure_refuted",
    "C43_no_default_refuted"
   ],
   "note": "The key/failure iffs for every history. C43_failure_refuted: an accessor that throws when notified only causes a field error and stays subscribed, against the comment in the code. C43_no_default_refuted: without a default object the notified calls dereference null."
  },
  {
   "property": "C44",
   "status": "partial",
   "theorems": [
    "C44_accepts_partial",
    "C44_single_root_field",
    "C44_rejects",
    "C44_several_operations_refuted",
    "C44_root_in_fragment_refuted",
    "C44_default_values_refuted",
    "C44_dropped_root_refuted"
   ],
   "note": "Accepted documents (C44_accepts_partial), what is registered (C44_single_root_field), rejected documents (C44_rejects). The full statement fails: several operations, a root field in a fragment (both undefined behaviour), default values of variables, a dropped root field; see the _refuted theorems."
  },
  {
   "property": "C45",
   "status": "partial",
   "theorems": [
    "C45_execution",
    "C45_response",
    "C45_merge_refuted"
   ],
   "note": "C45_execution and C45_response: the exact response of every selection set / request for which a derivation of ExecBigSpec.executes exists, for every schedule and launch policy. Fields with the same response key are not merged in the code (C45_merge_refuted), and the relation leaves out selections with failing directive conditions, undefined fragments and unconvertible arguments (those make the surrounding set fail, see C39), so the full property of the GraphQL specification is not what the code does."
  },
  {
   "property": "C46",
   "status": "partial",
   "theorems": [
    "C46_generated_schema_partial",
    "C46_same_types",
    "C46_introspection_partial",
    "C46_extension_first_refuted",
    "C46_deprecation_refuted",
    "C46_unchecked_refuted",
    "C46_variables_refuted",
    "C46_extend_scalar_refuted",
    "C46_extension_unknown_refuted"
   ],
   "note": "Proved for documents that are usual (GenSpec.usual). Where it fails: an extension before or without its definition is dropped (C46_extension_first_refuted, C46_extension_unknown_refuted), @deprecated without a reason (C46_deprecation_refuted), argument types that the loader does not check make GetSchema throw (C46_unchecked_refuted), two types with one C++ name (C46_variables_refuted), extend scalar is rejected (C46_extend_scalar_refuted)."
  },
  {
   "property": "C47",
   "status": "partial",
   "theorems": [
    "C47_accepts_partial",
    "C47_errors",
    "C47_loaded_partial",
    "C47_arguments_refuted",
    "C47_implements_refuted",
    "C47_default_type_refuted",
    "C47_duplicate_refuted",
    "C47_variable_refuted"
   ],
   "note": "Proved for orderly documents (AcceptSpec.orderly: distinct type names, extensions after their definitions, grammatical type references). Where the loader accepts what GraphQL forbids: argument types of fields with a built-in type (C47_arguments_refuted), missing interface fields (C47_implements_refuted), ill-typed defaults (C47_default_type_refuted), duplicate types (C47_duplicate_refuted), a variable as default (C47_variable_refuted)."
  },
  {
   "property": "C48",
   "status": "partial",
   "theorems": [
    "C48_parsed_iff_spelled_partial",
    "C48_locations",
    "C48_parsed_at",
    "C48_unambiguous",
    "C48_rejected",
    "C48_sample",
    "C48_adjacent_items_refuted",
    "C48_sigil_refuted",
    "C48_float_refuted",
    "C48_ignored_refuted"
   ],
   "note": "For all texts and documents, both directions, with locations, for the language written down in ParseSpec.v. That language is narrower than the GraphQL specification's in five places, and C48_..._refuted exhibit each (adjacent items without separator, blank after a sigil, float with fraction and exponent, comment ended by CR, byte order mark inside)."
  },
  {
   "property": "C49",
   "status": "partial",
   "theorems": [
    "C49_attempts_definite",
    "C49_polynomial_time_refuted"
   ],
   "note": "Refuted: a valid query of length 2n+14 takes at least 2^n match attempts (nested list types). What is proved of the positive part is that every parse makes a definite, finite number of attempts."
  },
  {
   "property": "C50",
   "status": "partial",
   "theorems": [
    "C50_execution",
    "C50_validated_request_partial",
    "C50_no_failure_partial",
    "C50_mild_failures_partial",
    "C50_missing_condition_refuted",
    "C50_same_key_refuted",
    "C50_undeclared_variable_refuted",
    "C50_big_integer_refuted"
   ],
   "note": "C50_execution: executing a selection set all of whose fields were checked, on a service typed by the schema, has exactly one outcome, data that fits, and only errors of accessors. C50_validated_request_partial composes it with validation and the request: missing are documents in which a field that repeats a response key has invalid arguments or an invalid sub-selection (repeats_ok excludes them; repeated keys as such are covered, RepeatsProps.v), and what validation does not look at (integers beyond 32 bits, undeclared variables inside custom scalars, @skip or @include without argument, both on one selection); C50_..._refuted give an accepted document of each kind that goes wrong with accessors that never fail. A null at a non-null place is excused only by a failure of that field's accessor, called with arguments that fit, at that path; C50_mild_failures_partial: there is none if accessors fail only at nullable places. Variables must be given with values of the declared types: the service does not check them. Subscriptions are not covered."
  },
  {
   "property": "C51",
   "status": "partial",
   "theorems": [
    "C51_parsed_iff_spelled_partial",
    "C51_read_is_spelled",
    "C51_rejected",
    "C51_unambiguous",
    "C51_loads",
    "C51_ends",
    "C51_accepted_text",
    "C51_generated_schema",
    "C51_repository",
    "C51_sample",
    "C51_adjacent_refuted",
    "C51_schema_extension_refuted",
    "C51_enum_value_refuted",
    "C51_description_refuted"
   ],
   "note": "For all texts: what is read is spelled, and (without operations and fragments among the definitions) a text is read as a list of definitions exactly if it spells it. The language is the one written down in SdlSpec.v; it differs from the GraphQL specification's in the places that C51_..._refuted exhibit (adjacent items, blank after a sigil, schema extension with directives and a blank, true/false/null as enum values, descriptions cut at the first escape)."
  },
  {
   "property": "C52",
   "status": "partial",
   "theorems": [
    "C52_struct_partial",
    "C52_member_type",
    "C52_client_reads_partial",
    "C52_client_reads_failures_partial",
    "C52_enum_names_refuted",
    "C52_failed_accessor_refuted",
    "C52_same_key_refuted",
    "C52_member_names_refuted"
   ],
   "note": "Proved end to end: struct of the operation, the service's reply, its trip through JSON, the parsed struct, with accessors that never fail or (C52_client_reads_failures_partial) fail only where the type allows null. Missing from the full claim, all refuted with witnesses: enum values that are not their own C++ name, failing accessors at non-null places (parseResponse throws), one response key on two types, keys with one C++ name. A response key used again must be as in C50 (repeats_ok) and have the same sub-selection up to its position in the text (consistent_below); the code does not merge sub-selections (C12, C45)."
  },
  {
   "property": "C53",
   "status": "partial",
   "theorems": [
    "C53_client_schema_partial",
    "C53_same_schema_partial",
    "C53_same_errors_partial",
    "C53_marked_validated_partial",
    "C53_same_errors_good_partial",
    "C53_introspection_refuted",
    "C53_unchecked_refuted"
   ],
   "note": "Proved for usual documents (C53_same_schema_partial, C53_same_errors_partial, C53_marked_validated_partial: any two schemas that the two registries represent) and, without that restriction, for every loaded document with distinct names whose types all exist (C53_same_errors_good_partial). Where it fails: clientgen and schemagen run with different --no-introspection flags (C53_introspection_refuted), a type named only where the loader does not look makes clientgen terminate (C53_unchecked_refuted). Histories with operations of unsupported kinds are those of C22."
  },
  {
   "property": "C54",
   "status": "partial",
   "theorems": [
    "C54_service_accepts_partial",
    "C54_request_text_partial",
    "C54_same_document_partial",
    "C54_parsed_partial",
    "C54_same_errors",
    "C54_still_valid_partial",
    "C54_byte_order_mark_refuted",
    "C54_block_string_refuted",
    "C54_delimiter_refuted",
    "C54_comment_is_code_refuted"
   ],
   "note": "Proved for every request file that spells a document (C48) without a byte order mark, without the sequence )gql\" and without line feeds inside block strings: the text in the generated client parses to the same document up to positions, validation gives it the same errors whatever the schema (C54_same_errors, without any restriction) and with C53 the service accepts it (C54_service_accepts_partial). With line feeds in block strings the document is the same but for two tabs after each of them (C54_request_text_partial). The full statement is false of the code: C54_byte_order_mark_refuted, C54_block_string_refuted, C54_delimiter_refuted, C54_comment_is_code_refuted. What a compiler does with carriage returns in a raw string literal is not modelled."
  },
  {
   "property": "C55",
   "status": "partial",
   "theorems": [
    "C55_checks",
    "C55_same_execution",
    "C55_same_response",
    "C55_relaid_symmetric",
    "C55_same_document_partial",
    "C55_parsed_partial",
    "C55_valid_texts_partial",
    "C55_same_request_partial",
    "C55_client_text_partial",
    "C55_separators_refuted",
    "C55_block_indentation_refuted"
   ],
   "note": "Proved for documents that differ only in positions (C55_same_execution, C55_same_response, with any check that is blind to layout, C55_checks) and for texts with the same tokens where ignorable text is replaced between tokens, or added and removed after opening and before closing punctuators, after `...` and at the end (C55_same_document_partial, C55_parsed_partial, C55_valid_texts_partial, C55_same_request_partial); the text of a generated client against its file (C55_client_text_partial). Missing because the code falsifies it: adjacent selections without a separator, blanks after `$` and `@` (C55_separators_refuted); the indentation of block strings stays in their values (C55_block_indentation_refuted)."
  },
  {
   "property": "C56",
   "status": "partial",
   "theorems": [
    "C56_declarations_partial",
    "C56_sent_partial",
    "C56_received_partial",
    "C56_exchange_partial",
    "C56_exchange_failures_partial",
    "C56_order_refuted",
    "C56_default_refuted",
    "C56_compiled_refuted",
    "C56_enum_names_refuted"
   ],
   "note": "What is missing is false of the code (_refuted): fields of a non-null or list input type do not count as dependencies, so that their types may be declared too late (C56_order_refuted; the theorem has the order under only_nullable); scalar, enum and list variables, and input types inside others, give code that is not compiled (C56_compiled_refuted; object_variable excludes the variables, the message of nested input types is proved as if it were compiled); a default value that is a variable or an integer of more than 32 bits ends clientgen (C56_default_refuted, default_readable); enum values that have another C++ name are sent under that name (C56_enum_names_refuted, plain_enums). not_recursive and names_clean are what the loader and the grammar make sure of (C34, C47)."
  },
  {
   "property": "C57",
   "status": "partial",
   "theorems": [
    "C57_arguments_partial",
    "C57_typed_service_partial",
    "C57_call_partial",
    "C57_hosted",
    "C57_failures_partial",
    "C57_request_partial",
    "C57_exchange_partial",
    "C57_null_pointer_refuted",
    "C57_wrong_class_refuted",
    "C57_float_default_refuted",
    "C57_default_type_refuted",
    "C57_introspection_argument_refuted"
   ],
   "note": "Proved for every document the loader accepts (usual, own_types, defaults_fit, schema_wf of its schema) and every implementation of the accessors: the arguments are read as values of the declared C++ types (C57_arguments), the service is typed by its schema (C57_typed_service), fails only where accessors throw (C57_failures), and each accessor is called with exactly the given values, or the defaults, and its result is delivered unchanged (C57_call); composed with the executor, the validator and the generated client (C57_request, C57_exchange). Defaults that do not fit, float defaults of more than six digits, arguments of introspection types, null pointers at non-null places and objects of a class that does not implement the interface are accepted by schemagen or the C++ compiler but break it: C57_default_type_refuted, C57_float_default_refuted, C57_introspection_argument_refuted, C57_null_pointer_refuted, C57_wrong_class_refuted."
  },
  {
   "property": "C58",
   "status": "partial",
   "theorems": [
    "C58_schema_wf",
    "C58_checked",
    "C58_interfaces",
    "C58_request_partial",
    "C58_exchange_partial",
    "C58_duplicate_field_refuted",
    "C58_reserved_field_refuted",
    "C58_duplicate_argument_refuted",
    "C58_output_argument_refuted",
    "C58_directive_refuted",
    "C58_interface_refuted"
   ],
   "note": "C58_schema_wf (an equivalence), C58_checked and C58_interfaces are the full statements about the schema. Partial: the way to the response (C58_request_partial, C58_exchange_partial) asks for what C57 and C50 ask for of the request and the accessors; schemagen accepts documents that are not sound, or whose objects do not have the fields of their interfaces (the _refuted theorems)."
  },
  {
   "property": "C59",
   "status": "partial",
   "theorems": [
    "C59_generated_partial",
    "C59_event_partial",
    "C59_no_failure_partial",
    "C59_client_reads_partial",
    "C59_delivered_partial",
    "C59_wrong_object_refuted",
    "C59_default_value_refuted"
   ],
   "note": "C59_event_partial: in any history of calls every event that a careful subscription receives, on an object of its type, has data of the schema's types, with null where the schema forbids it only at the path where an accessor failed, and only errors of accessors; C59_no_failure_partial (accessors that do not fail, or only where null is allowed); C59_delivered_partial (the delivery reaches all recipients); C59_client_reads_partial (the struct clientgen makes reads every event, also by way of JSON); C59_generated_partial: the whole way from a schema document through schemagen to the events of the generated service and the client's struct. Partial because the code falsifies the rest: C59_wrong_object_refuted, C59_default_value_refuted, and what C50, C52 and C58 refute about documents."
  },
  {
   "property": "C60",
   "status": "partial",
   "theorems": [
    "C60_as_if_sequential",
    "C60_delivery",
    "C60_document",
    "C60_completes",
    "C60_unsubscribed_refuted"
   ],
   "note": "Proved for the deferred policy: nested calls flatten to a sequential history, every delivery calls the recipients as of its start in key order, and completes whatever the callbacks do unless one throws. Missing: callbacks on their own threads, filters and accessors that call the Request. C60_unsubscribed_refuted: a callback unsubscribed during the delivery is still called."
  },
  {
   "property": "C61",
   "status": "partial",
   "theorems": [
    "C61_six_digit_doubles",
    "C61_exact_partial",
    "C61_document_exact_partial",
    "C61_six_digits",
    "C61_defaults_partial",
    "C61_arguments_partial",
    "C61_literals",
    "C61_document_partial",
    "C61_without_floats",
    "C61_float_refuted",
    "C61_text_refuted",
    "C61_injection_refuted"
   ],
   "note": "Proved end to end, from the emitted characters through lexing and execution to the map of values, for every list of defaults whose floats are finite, whose texts do not hold the end of the raw string literal and whose names are names; the loader makes such values (C61_literals, C61_document_partial). Values without floats arrive exactly (C61_without_floats), and so do doubles nearest to a decimal of at most six digits between 1e-307 and 1e307 (C61_six_digit_doubles, C61_exact_partial, C61_document_exact_partial); any other double arrives as the six digits nearest to it (C61_six_digits); seven digits are lost: C61_float_refuted. Texts with )gql\" break or change the program: C61_text_refuted, C61_injection_refuted. Missing: the rest of the generated C++ as text."
  }
 ]
}