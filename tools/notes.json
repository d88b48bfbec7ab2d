{
"C01": [
"proved",
"Encoder equals RFC 4648 for every byte sequence; decode of encode is the identity."
],
"C02": [
"proved",
"Exact acceptance set; decoder never reads out of range. Finding: non-canonical trailing bits are accepted (C02_canonical_only_refuted)."
],
"C03": [
"partial",
"Every operation history refines a finite map. The initializer-list constructor is only a map when its keys are distinct (C03_init_partial, C03_init_duplicates_refuted)."
],
"C04": [
"proved",
""
],
"C05": [
"proved",
""
],
"C06": [
"partial",
"Type safety of get, set and release. The sub-claim that a failed release leaves the value unchanged is false for release<IdType> on text that is not Base64 (C06_release_throw_unchanged_refuted)."
],
"C07": [
"partial",
"Equality is an equivalence exactly when no NaN occurs; copying a Scalar without value fails (C07_copy_total_refuted)."
],
"C08": [
"proved",
"At the level of RapidJSON SAX events; RapidJSON contract in JSONSpec.v. Strings with embedded NUL are truncated (C08_all_strings_refuted)."
],
"C09": [
"proved",
"No undefined behaviour for any callback sequence; malformed documents are not reported (C09_malformed_reported_refuted)."
],
"C10": [
"partial",
"Exact equivalence with input coercion for nested input types; no undefined behaviour. The sub-claim that every failure is a schema_exception naming the argument is false (C10_error_label_refuted); the true part is C10_error_label_partial. Input types with defaults: see C41."
],
"C33": [
"proved",
"Round trips for built-in scalars, IDs, enums, nested structs under all modifier stacks, directly and through JSON. Shape mismatches are not noticed by the client (C33_shape_mismatch_refuted)."
],
"C41": [
"partial",
"Defaults work for non-nullable types only (C41_default_when_absent_partial); refuted for nullable types and for invalid values."
],
"C11": [
"partial",
"Fields, spreads and inline fragments are dropped/kept as decided by one condition directive; with both @skip(if:false) and @include(if:false) the code ignores @include (C11_both_directives_refuted). Missing: the both-directives case, which is false of the code."
],
"C12": [
"partial",
"Keys are exactly the first kept occurrences in document order when no response key has both kept and dropped occurrences; otherwise false of the code (C12_skipped_key_refuted); duplicates are not merged, only the first is executed. C12_result_keys_exact is unconditional."
],
"C13": [
"partial",
"Siblings are unaffected and the failed field gets null and located errors for synchronous failures; errors of futures of objects have no location or path (C13_future_location_refuted)."
],
"C14": [
"partial",
"Lists keep length and order when no element's object fails; a failing object element is dropped from the list (C14_failed_object_refuted)."
],
"C15": [
"proved",
"Spreads and inline fragments are equivalent to their inlined selections, or to nothing, for accessors that ignore fragment directives."
],
"C16": [
"proved",
"For accessors whose answers depend on their inputs only: one response for all launch policies and schedules; bounded executions, no deadlock."
],
"C17": [
"partial",
"Root order and a single schedule hold always; serial execution of sub-selections is proved for immediate answers and refuted for answers that are futures of objects (what generated code returns): C17_deferred_refuted."
],
"C18": [
"partial",
"Every argument and directive value an accessor sees is evaluated in the operation's variables; false for the directives of fragment definitions (C18_fragment_directives_refuted)."
],
"C19": [
"proved",
"Selection by name, missing operation, subscription, invalid document."
],
"C26": [
"partial",
"Validation always ends (C26_validation_ends); accepted documents whose repeated response keys are as repeats_ok says (repeated_fields_ok: repeated fields, which validation does not look into, have valid arguments and sub-selections; trivially so if response keys are distinct) have no fragment cycle and their execution ends; C26_validation_refuted: an accepted document with a fragment cycle whose execution does not end."
],
"C32": [
"proved",
"Error documents and the client's parsing of them, for positions and indices below 2^31."
],
"C39": [
"partial",
"Every document returned has the shape; some requests throw out of the future instead (C39_exception_refuted)."
],
"C40": [
"proved",
"Every accessor call of every execution is one the document asks for, with the values of its literals."
],
"C22": [
"partial",
"History independence for all histories of documents whose operations have a root type in the schema. C22_refuted: after a document with an operation of an unsupported kind a valid document is rejected."
],
"C23": [
"proved",
"C23_variable_type is the type check for all types; C23_variable_usage is the end-to-end statement through the whole visitor for a one-argument field; for arbitrary documents the rule is part of C28_accepts_exactly_valid (value_ok, ok_var)."
],
"C24": [
"partial",
"Acceptance of a literal is characterized exactly (C24_literal plus one theorem for each kind of type). The characterization differs from GraphQL coercion in the ways shown by the C24_..._refuted theorems."
],
"C25": [
"partial",
"Full property when response keys are distinct (C25_distinct_keys) or the repeated fields have valid arguments and sub-selections (C25_repeats), otherwise for the first field of each key; C25_refuted shows the gap."
],
"C27": [
"partial",
"All except that a directive without an argument list is not checked for required arguments (C27_refuted). C27_field_directives is exact."
],
"C28": [
"proved",
"C28_accepts_exactly_valid: validation of a fresh Request reports no error exactly for the documents that satisfy the declarative rules of ValidationSpec.v. C28_unused_fragments_refuted documents how \"unused\" is decided."
],
"C42": [
"partial",
"Repeated validation with one Request; C42_other_request_refuted: the flag in the parsed document lets a document pass a Request for another schema without validation."
],
"C20": [
"proved",
"Any history of subscribe, unsubscribe (both with and without notification) and deliver calls. made h < 2^64 is the number of subscriptions ever made (keys wrap otherwise). name <> \"\" excludes the pseudo event of C44_dropped_root_refuted. C20_key_reuse_refuted: keys are given out again after unsubscribe. Calls are atomic; calls into the Request from accessors or callbacks during deliver are not modelled."
],
"C21": [
"proved",
"C21_reached and C21_overloads give the exact set; C21_document the payload. Refuted readings of the docs: deliver(name, object) is not unconditional; deliver(name, arguments) never reaches a field with any directive; strings from JSON and from the application never match."
],
"C43": [
"proved",
"The key/failure iffs for every history. C43_failure_refuted: an accessor that throws when notified only causes a field error and stays subscribed, against the comment in the code. C43_no_default_refuted: without a default object the notified calls dereference null."
],
"C44": [
"partial",
"Accepted documents (C44_accepts_partial), what is registered (C44_single_root_field), rejected documents (C44_rejects). The full statement fails: several operations, a root field in a fragment (both undefined behaviour), default values of variables, a dropped root field; see the _refuted theorems."
],
"C29": [
"proved",
"WrapType as a transition system over any number of threads, a readers/writer mutex per map and the vectors themselves: interned, distinct, bounded, no data race, iterators always valid, no deadlock, every call ends."
],
"C30": [
"proved",
"Registry as a heap of type objects and the calls that build it; WrapType here sequential (C29 has the threads). Lifetimes of weak pointers are not modelled."
],
"C45": [
"partial",
"C45_execution and C45_response: the exact response of every selection set / request for which a derivation of ExecBigSpec.executes exists, for every schedule and launch policy. Fields with the same response key are not merged in the code (C45_merge_refuted), and the relation leaves out selections with failing directive conditions, undefined fragments and unconvertible arguments (those make the surrounding set fail, see C39), so the full property of the GraphQL specification is not what the code does."
],
"C31": [
"proved",
"For every registry after any history of building calls that represents a schema S, every selection set on __schema, __type and the objects below it gives what the description of S (shows) gives, null where the specification asks for null, deprecated members only with includeDeprecated: true. The standard introspection query answers schema_json S, which determines S (C31_complete_response); every completely built registry represents some schema (C31_represented). Refuted part: __type of an unknown name also reports an error."
],
"C34": [
"proved",
"C34_recursive_refuted: recursion through nullable or list fields, which GraphQL allows, is also reported as a cycle; the property counts every reference."
],
"C35": [
"proved",
"Modifier stacks, the introspection type expression and the C++ types of inputs and outputs."
],
"C36": [
"proved",
"C36_distinct_refuted: distinct GraphQL names may get the same C++ name, and C++ keywords are not changed; the property does not promise either."
],
"C46": [
"partial",
"Proved for documents that are usual (GenSpec.usual). Where it fails: an extension before or without its definition is dropped (C46_extension_first_refuted, C46_extension_unknown_refuted), @deprecated without a reason (C46_deprecation_refuted), argument types that the loader does not check make GetSchema throw (C46_unchecked_refuted), two types with one C++ name (C46_variables_refuted), extend scalar is rejected (C46_extend_scalar_refuted)."
],
"C47": [
"partial",
"Proved for orderly documents (AcceptSpec.orderly: distinct type names, extensions after their definitions, grammatical type references). Where the loader accepts what GraphQL forbids: argument types of fields with a built-in type (C47_arguments_refuted), missing interface fields (C47_implements_refuted), ill-typed defaults (C47_default_type_refuted), duplicate types (C47_duplicate_refuted), a variable as default (C47_variable_refuted)."
],
"C37": [
"partial",
"Quoted strings: proved for every spelling what is delivered, that this is the denoted text exactly if every escape is one of \\\" \\\\ \\/ (C37_quoted_exact), and refuted otherwise (escapes are delivered as the letter after the backslash). Block strings: delivered raw; equal to the specified value if there is nothing to remove; otherwise refuted. Fails for: other escapes, unicode escapes, indented block strings, escaped triple quotes."
],
"C38": [
"proved",
"Parsing terminates with a tree or a parse_error for every text, for executable and schema documents; every tree of parseString has the children that the visitors of validation and execution read, and every tree of parseSchemaString those that SchemaLoader reads."
],
"C48": [
"partial",
"For all texts and documents, both directions, with locations, for the language written down in ParseSpec.v. That language is narrower than the GraphQL specification's in five places, and C48_..._refuted exhibit each (adjacent items without separator, blank after a sigil, float with fraction and exponent, comment ended by CR, byte order mark inside)."
],
"C49": [
"partial",
"Refuted: a valid query of length 2n+14 takes at least 2^n match attempts (nested list types). What is proved of the positive part is that every parse makes a definite, finite number of attempts."
],
"C50": [
"partial",
"C50_execution: executing a selection set all of whose fields were checked, on a service typed by the schema, has exactly one outcome, data that fits, and only errors of accessors. C50_validated_request_partial composes it with validation and the request: missing are documents in which a field that repeats a response key has invalid arguments or an invalid sub-selection (repeats_ok excludes them; repeated keys as such are covered, RepeatsProps.v), and what validation does not look at (integers beyond 32 bits, undeclared variables inside custom scalars, @skip or @include without argument, both on one selection); C50_..._refuted give an accepted document of each kind that goes wrong with accessors that never fail. A null at a non-null place is excused only by a failure of that field's accessor, called with arguments that fit, at that path; C50_mild_failures_partial: there is none if accessors fail only at nullable places. Variables must be given with values of the declared types: the service does not check them. Subscriptions are not covered."
],
"C51": [
"partial",
"For all texts: what is read is spelled, and (without operations and fragments among the definitions) a text is read as a list of definitions exactly if it spells it. The language is the one written down in SdlSpec.v; it differs from the GraphQL specification's in the places that C51_..._refuted exhibit (adjacent items, blank after a sigil, schema extension with directives and a blank, true/false/null as enum values, descriptions cut at the first escape)."
],
"C52": [
"partial",
"Proved end to end: struct of the operation, the service's reply, its trip through JSON, the parsed struct, with accessors that never fail or (C52_client_reads_failures_partial) fail only where the type allows null. Missing from the full claim, all refuted with witnesses: enum values that are not their own C++ name, failing accessors at non-null places (parseResponse throws), one response key on two types, keys with one C++ name. A response key used again must be as in C50 (repeats_ok) and have the same sub-selection up to its position in the text (consistent_below); the code does not merge sub-selections (C12, C45)."
],
"C53": [
"partial",
"Proved for usual documents (C53_same_schema_partial, C53_same_errors_partial, C53_marked_validated_partial: any two schemas that the two registries represent) and, without that restriction, for every loaded document with distinct names whose types all exist (C53_same_errors_good_partial). Where it fails: clientgen and schemagen run with different --no-introspection flags (C53_introspection_refuted), a type named only where the loader does not look makes clientgen terminate (C53_unchecked_refuted). Histories with operations of unsupported kinds are those of C22."
],
"C54": [
"partial",
"Proved for every request file that spells a document (C48) without a byte order mark, without the sequence )gql\" and without line feeds inside block strings: the text in the generated client parses to the same document up to positions, validation gives it the same errors whatever the schema (C54_same_errors, without any restriction) and with C53 the service accepts it (C54_service_accepts_partial). With line feeds in block strings the document is the same but for two tabs after each of them (C54_request_text_partial). The full statement is false of the code: C54_byte_order_mark_refuted, C54_block_string_refuted, C54_delimiter_refuted, C54_comment_is_code_refuted. What a compiler does with carriage returns in a raw string literal is not modelled."
],
"C55": [
"partial",
"Proved for documents that differ only in positions (C55_same_execution, C55_same_response, with any check that is blind to layout, C55_checks) and for texts with the same tokens where ignorable text is replaced between tokens, or added and removed after opening and before closing punctuators, after `...` and at the end (C55_same_document_partial, C55_parsed_partial, C55_valid_texts_partial, C55_same_request_partial); the text of a generated client against its file (C55_client_text_partial). Missing because the code falsifies it: adjacent selections without a separator, blanks after `$` and `@` (C55_separators_refuted); the indentation of block strings stays in their values (C55_block_indentation_refuted)."
],
"C56": [
"partial",
"What is missing is false of the code (_refuted): fields of a non-null or list input type do not count as dependencies, so that their types may be declared too late (C56_order_refuted; the theorem has the order under only_nullable); scalar, enum and list variables, and input types inside others, give code that is not compiled (C56_compiled_refuted; object_variable excludes the variables, the message of nested input types is proved as if it were compiled); a default value that is a variable or an integer of more than 32 bits ends clientgen (C56_default_refuted, default_readable); enum values that have another C++ name are sent under that name (C56_enum_names_refuted, plain_enums). not_recursive and names_clean are what the loader and the grammar make sure of (C34, C47)."
],
"C57": [
"partial",
"Proved for every document the loader accepts (usual, own_types, defaults_fit, schema_wf of its schema) and every implementation of the accessors: the arguments are read as values of the declared C++ types (C57_arguments), the service is typed by its schema (C57_typed_service), fails only where accessors throw (C57_failures), and each accessor is called with exactly the given values, or the defaults, and its result is delivered unchanged (C57_call); composed with the executor, the validator and the generated client (C57_request, C57_exchange). Defaults that do not fit, float defaults of more than six digits, arguments of introspection types, null pointers at non-null places and objects of a class that does not implement the interface are accepted by schemagen or the C++ compiler but break it: C57_default_type_refuted, C57_float_default_refuted, C57_introspection_argument_refuted, C57_null_pointer_refuted, C57_wrong_class_refuted."
],
"C58": [
"partial",
"C58_schema_wf (an equivalence), C58_checked and C58_interfaces are the full statements about the schema. Partial: the way to the response (C58_request_partial, C58_exchange_partial) asks for what C57 and C50 ask for of the request and the accessors; schemagen accepts documents that are not sound, or whose objects do not have the fields of their interfaces (the _refuted theorems)."
],
"C59": [
"partial",
"C59_event_partial: in any history of calls every event that a careful subscription receives, on an object of its type, has data of the schema's types, with null where the schema forbids it only at the path where an accessor failed, and only errors of accessors; C59_no_failure_partial (accessors that do not fail, or only where null is allowed); C59_delivered_partial (the delivery reaches all recipients); C59_client_reads_partial (the struct clientgen makes reads every event, also by way of JSON); C59_generated_partial: the whole way from a schema document through schemagen to the events of the generated service and the client's struct. Partial because the code falsifies the rest: C59_wrong_object_refuted, C59_default_value_refuted, and what C50, C52 and C58 refute about documents."
],
"C60": [
"partial",
"Proved for the deferred policy: nested calls flatten to a sequential history, every delivery calls the recipients as of its start in key order, and completes whatever the callbacks do unless one throws. Missing: callbacks on their own threads, filters and accessors that call the Request. C60_unsubscribed_refuted: a callback unsubscribed during the delivery is still called."
],
"C61": [
"partial",
"Proved end to end, from the emitted characters through lexing and execution to the map of values, for every list of defaults whose floats are finite, whose texts do not hold the end of the raw string literal and whose names are names; the loader makes such values (C61_literals, C61_document_partial). Values without floats arrive exactly (C61_without_floats), and so do doubles nearest to a decimal of at most six digits between 1e-307 and 1e307 (C61_six_digit_doubles, C61_exact_partial, C61_document_exact_partial); any other double arrives as the six digits nearest to it (C61_six_digits); seven digits are lost: C61_float_refuted. Texts with )gql\" break or change the program: C61_text_refuted, C61_injection_refuted. Missing: the rest of the generated C++ as text."
]
}