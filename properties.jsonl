{"id": "C01", "title": "Base64 round trip", "statement": "Encoding any byte sequence with Base64::toBase64 gives text that Base64::fromBase64 accepts and turns back into exactly the same bytes; the text has length 4*ceil(n/3), uses only the Base64 alphabet and padding, and two different byte sequences never share an encoding.", "quantifier": "every finite sequence of bytes, of every length (all three residues mod 3)", "why_tests_cant": "tests sample a few byte strings; the claim ranges over unboundedly many lengths and every byte combination at the tail", "anchors": [{"file": "src/Base64.cpp", "symbols": ["Base64::toBase64", "Base64::fromBase64", "verifyFromBase64"]}, {"file": "include/graphqlservice/internal/Base64.h", "symbols": ["Base64"]}]}
{"id": "C02", "title": "Base64 decoding accepts exactly what its contract says", "statement": "Base64::fromBase64 either throws std::logic_error or returns bytes; it returns bytes only for text that, after completing or normalising its padding, is the encoding of those bytes. In particular no text with a character outside the alphabet, with non-zero discarded tail bits, or with a dangling single character is ever decoded, and it never reads outside the input.", "quantifier": "every string over all 256 byte values", "why_tests_cant": "the accept/reject boundary is over all strings; tests check a handful of bad paddings", "anchors": [{"file": "src/Base64.cpp", "symbols": ["Base64::fromBase64"]}, {"file": "include/graphqlservice/internal/Base64.h", "symbols": ["Base64::fromBase64(char)"]}]}
{"id": "C03", "title": "sorted_map / sorted_set behave like a finite map / set", "statement": "Starting from an empty container, after any sequence of emplace, erase, clear, operator[] and find calls the observable contents (find, iteration, size) equal those of the abstract finite map/set with first-insertion-wins semantics, and iteration is in strictly increasing key order.", "quantifier": "every sequence of operations and all keys and values", "why_tests_cant": "ordering invariants of a binary-searched vector can only be broken by particular histories", "anchors": [{"file": "include/graphqlservice/internal/SortedMap.h", "symbols": ["sorted_map", "sorted_set", "sorted_map_lookup", "sorted_map_equal_range"]}]}
{"id": "C04", "title": "shorter_or_less is a strict total order", "statement": "The comparator used for every string-keyed container is irreflexive, transitive and total, two strings are equivalent under it only if equal, and it always orders a shorter string first.", "quantifier": "all pairs and triples of strings", "why_tests_cant": "a comparator that violates strict weak ordering makes binary search undefined for some inputs only", "anchors": [{"file": "include/graphqlservice/internal/SortedMap.h", "symbols": ["shorter_or_less"]}]}
{"id": "C05", "title": "Response maps: insertion order, unique keys, coherent index", "statement": "After any sequence of emplace_back calls on a response::Value of type Map (interleaved with copies and moves), iterating returns the entries in insertion order with the first value given for each key, find(key) returns exactly the entry with that key or end(), operator[](key) returns its value or throws, and emplace_back reports false without changing the map exactly when the key is already present.", "quantifier": "every sequence of insertions, copies and lookups, all keys and values", "why_tests_cant": "the map keeps a second sorted index of positions; a mismatch appears only after particular histories", "anchors": [{"file": "src/GraphQLResponse.cpp", "symbols": ["Value::emplace_back", "Value::find", "Value::operator[]", "Value::Value(const Value&)"]}, {"file": "include/graphqlservice/GraphQLResponse.h", "symbols": ["response::Value"]}]}
{"id": "C06", "title": "Response values are type safe", "statement": "get, set and release on a response::Value succeed exactly for the value's own type plus the documented coercions (Float read from Int, Int or Float write conversions, ID from Base64 text), return the stored payload, and on any other type throw std::logic_error leaving the value observably unchanged; a set followed by a get returns what was set.", "quantifier": "all value types, payloads and accessor combinations", "why_tests_cant": "the cross product of types, accessors and payloads, including boundary integers, is not enumerable by tests", "anchors": [{"file": "src/GraphQLResponse.cpp", "symbols": ["Value::get", "Value::set", "Value::release"]}]}
{"id": "C07", "title": "Response equality is an equivalence and copies are equal", "statement": "operator== on response values without NaN is reflexive, symmetric and transitive, equal values have the same type, and a copy of a value always compares equal to the original and shares no state with it.", "quantifier": "all (nested) values of unbounded depth and width", "why_tests_cant": "structural induction over unbounded nested values", "anchors": [{"file": "src/GraphQLResponse.cpp", "symbols": ["Value::operator==", "Value::Value(const Value&)"]}]}
{"id": "C08", "title": "toJSON then parseJSON preserves a response", "statement": "Serialising a response value to JSON and parsing the result gives back an equivalent value: same structure, same entry order, same scalar payloads; enum values come back as strings carrying the same text usable as enums, custom scalars come back as their payload.", "quantifier": "all nested response values that are representable in JSON", "why_tests_cant": "nested unbounded documents, every string content and number boundary", "anchors": [{"file": "src/JSONResponse.cpp", "symbols": ["toJSON", "parseJSON", "StreamWriter", "ResponseHandler"]}]}
{"id": "C09", "title": "parseJSON is total and range safe", "statement": "parseJSON accepts any well-formed JSON document whose integers fit a 32 bit signed int, never silently wraps an integer (out of range integers raise std::overflow_error), and for duplicate object keys keeps the first entry; it reports malformed documents.", "quantifier": "every sequence of SAX events the JSON reader can deliver", "why_tests_cant": "integer boundaries and nesting structure are unbounded", "anchors": [{"file": "src/JSONResponse.cpp", "symbols": ["ResponseHandler", "parseJSON"]}]}
{"id": "C10", "title": "Typed argument extraction honours nullability and list modifiers", "statement": "ModifiedArgument<T>::require with any stack of Nullable/List modifiers converts an argument value exactly according to the GraphQL input coercion implied by that stack: absent or null is accepted only under Nullable, lists map element-wise in order, anything else throws a schema_exception naming the argument; find never throws and reports false exactly when require would throw.", "quantifier": "all modifier stacks, all argument maps and values", "why_tests_cant": "modifier stacks nest arbitrarily and combine with nested values", "anchors": [{"file": "include/graphqlservice/GraphQLService.h", "symbols": ["ModifiedArgument"]}, {"file": "src/GraphQLService.cpp", "symbols": ["ModifiedArgument<int>::convert", "ModifiedArgument<response::IdType>::convert"]}]}
{"id": "C11", "title": "@skip and @include decide inclusion", "statement": "A field, fragment spread or inline fragment is executed exactly when it has neither @skip(if: true) nor @include(if: false); when both directives are present the selection is dropped if either one asks for it.", "quantifier": "all combinations of directives, argument literals and variable values", "why_tests_cant": "boolean combinations through variables over every selection kind", "anchors": [{"file": "src/GraphQLService.cpp", "symbols": ["DirectiveVisitor::shouldSkip", "SelectionVisitor::visitField", "SelectionVisitor::visitFragmentSpread", "SelectionVisitor::visitInlineFragment"]}]}
{"id": "C12", "title": "Result objects contain exactly the selected response keys in document order", "statement": "For every selection set that raises no error the resulting object's keys are the response keys (alias or name) of the selected, non-skipped fields in order of first appearance after expanding fragments, each exactly once.", "quantifier": "all selection sets, nested fragments and directives", "why_tests_cant": "unbounded nesting of fragments and repetition of keys", "anchors": [{"file": "src/GraphQLService.cpp", "symbols": ["SelectionVisitor", "Object::resolve"]}]}
{"id": "C13", "title": "An error in one field does not disturb its siblings", "statement": "If a field accessor or converter throws, the result object has null under that field's response key, the errors list gains exactly the errors raised by it (with location and path filled in when missing), and the values of all sibling fields are what they would have been without the failure.", "quantifier": "all objects, all subsets of failing fields and all exception kinds", "why_tests_cant": "which fields fail and how they interleave with siblings is unbounded", "anchors": [{"file": "src/GraphQLService.cpp", "symbols": ["Object::resolve", "SelectionVisitor::visitField"]}, {"file": "include/graphqlservice/GraphQLService.h", "symbols": ["ModifiedResult::resolve"]}]}
{"id": "C14", "title": "List results keep order, length and element error paths", "statement": "Resolving a list field yields a list with one entry per element in order; an element whose resolution fails yields null at its index plus errors whose path contains that index.", "quantifier": "lists of every length and every subset of failing elements, nested list modifiers", "why_tests_cant": "unbounded list lengths and failure subsets", "anchors": [{"file": "include/graphqlservice/GraphQLService.h", "symbols": ["ModifiedResult::convert"]}]}
{"id": "C15", "title": "Fragments apply exactly under their type condition", "statement": "The fields of a named or inline fragment contribute to the result exactly when the object's type matches the fragment's type condition (its own name, an interface or a union it belongs to) or the inline fragment has no type condition; spreading a fragment gives the same result as writing its selection inline.", "quantifier": "all documents, nesting of fragments and concrete object types", "why_tests_cant": "unbounded nesting of fragments", "anchors": [{"file": "src/GraphQLService.cpp", "symbols": ["SelectionVisitor::visitFragmentSpread", "SelectionVisitor::visitInlineFragment"]}]}
{"id": "C16", "title": "Responses do not depend on the launch policy or task schedule", "statement": "For accessors whose results do not depend on each other the response document produced by Request::resolve is the same for std::launch::deferred and std::launch::async and for every schedule of the asynchronous tasks.", "quantifier": "every interleaving of the asynchronous field resolutions", "why_tests_cant": "schedules cannot be enumerated by tests", "anchors": [{"file": "src/GraphQLService.cpp", "symbols": ["SelectionVisitor::visitField", "Object::resolve", "Request::resolve"]}, {"file": "include/graphqlservice/GraphQLService.h", "symbols": ["FieldResult", "ModifiedResult"]}]}
{"id": "C17", "title": "Mutation root fields execute serially", "statement": "For a mutation the effects of each root field, including its sub-selections, complete before the next root field's accessor is invoked.", "quantifier": "all mutation documents", "why_tests_cant": "effect order over arbitrary documents and accessors", "anchors": [{"file": "src/GraphQLService.cpp", "symbols": ["OperationDefinitionVisitor", "SelectionVisitor::visitField", "Object::resolve"]}]}
{"id": "C18", "title": "Operation variables: provided value, else default, else null; nothing else", "statement": "During execution of an operation each variable the operation declares has the provided value if one was provided, else its declared default, else null, and variables not declared by the operation are not visible.", "quantifier": "all operations, declared variables and provided variable maps", "why_tests_cant": "every combination of declared/provided/default variables", "anchors": [{"file": "src/GraphQLService.cpp", "symbols": ["OperationDefinitionVisitor::visit", "ValueVisitor::visitVariable"]}]}
{"id": "C19", "title": "The named operation is the one executed", "statement": "resolve/findOperationDefinition selects the operation whose name equals the requested name; an empty name selects the first operation; if there is no such operation an error document with null data is produced and nothing is executed.", "quantifier": "all documents and requested names", "why_tests_cant": "documents with arbitrarily many operations", "anchors": [{"file": "src/GraphQLService.cpp", "symbols": ["Request::findOperationDefinition", "Request::resolve"]}]}
{"id": "C20", "title": "Subscription registry: live keys, unsubscribe and delivery set", "statement": "After any history of subscribe, unsubscribe and deliver calls the registry holds exactly the subscriptions that were added and not removed, every live subscription has a distinct key, an unsubscribed callback is never invoked by a later deliver, and a deliver invokes each live matching callback exactly once in key order.", "quantifier": "every sequence of subscribe/unsubscribe/deliver operations", "why_tests_cant": "the registry keeps a map and a per-event listener index that must stay coherent for every history", "anchors": [{"file": "src/GraphQLService.cpp", "symbols": ["Request::subscribe", "Request::unsubscribe", "Request::deliver"]}, {"file": "include/graphqlservice/GraphQLService.h", "symbols": ["Request", "SubscriptionKey"]}]}
{"id": "C21", "title": "Deliveries are filtered exactly by event name, arguments and directives", "statement": "deliver(name, arguments, ...) reaches a subscription exactly when it selects that root field and every argument (and field directive) of its selection is matched by the delivered ones.", "quantifier": "all subscriptions, filters and delivered argument maps", "why_tests_cant": "arbitrary argument maps and filter callbacks", "anchors": [{"file": "src/GraphQLService.cpp", "symbols": ["Request::deliver", "SubscriptionDefinitionVisitor"]}]}
{"id": "C22", "title": "Validation is history independent", "statement": "Validating a document gives the same list of errors regardless of which documents were validated before with the same Request.", "quantifier": "all sequences of documents validated by one visitor", "why_tests_cant": "the validator keeps mutable state between documents; only particular histories expose a leak", "anchors": [{"file": "src/Validation.cpp", "symbols": ["ValidateExecutableVisitor::visit", "ValidateExecutableVisitor::getErrors"]}, {"file": "include/Validation.h", "symbols": ["ValidateExecutableVisitor"]}]}
{"id": "C23", "title": "Variables are only accepted where the GraphQL specification allows them", "statement": "The validator accepts a variable of declared type V at a position of type L exactly when IsVariableUsageAllowed/AreTypesCompatible of the GraphQL specification holds for V, its default, L and the location's default.", "quantifier": "all type references of any nesting depth", "why_tests_cant": "type references nest lists and non-null arbitrarily", "anchors": [{"file": "src/Validation.cpp", "symbols": ["ValidateExecutableVisitor::validateVariableType", "ValidateExecutableVisitor::validateInputValue"]}]}
{"id": "C24", "title": "Literals are only accepted at input positions they coerce to", "statement": "The validator accepts an input literal at a position of a given input type exactly when the literal is coercible to it (built-in scalars, enums, input objects with their required fields, lists element-wise, non-null).", "quantifier": "all input types (recursive) and all literals", "why_tests_cant": "recursive input objects and nested literals", "anchors": [{"file": "src/Validation.cpp", "symbols": ["ValidateExecutableVisitor::validateInputValue"]}]}
{"id": "C25", "title": "Validated selections only use fields and arguments that exist", "statement": "If validation reports no errors then every field selected in every operation exists on its parent type, leaf fields have no sub-selection, composite fields have one, every supplied argument is defined and every required argument is supplied.", "quantifier": "all documents over all schemas", "why_tests_cant": "unbounded documents including nested fragments and repeated fields", "anchors": [{"file": "src/Validation.cpp", "symbols": ["ValidateExecutableVisitor::visitField", "ValidateExecutableVisitor::visitSelection"]}]}
{"id": "C26", "title": "Validated documents have no fragment cycles, so execution terminates", "statement": "If validation reports no errors for a document then no fragment reachable from an operation spreads itself directly or indirectly, and executing the document terminates; validation itself always terminates.", "quantifier": "all documents with any fragment graph", "why_tests_cant": "cycles of every length through any selection nesting", "anchors": [{"file": "src/Validation.cpp", "symbols": ["ValidateExecutableVisitor::visitFragmentSpread"]}, {"file": "src/GraphQLService.cpp", "symbols": ["SelectionVisitor::visitFragmentSpread"]}]}
{"id": "C27", "title": "Directives are validated: known, allowed location, unique, with required arguments", "statement": "If validation accepts the directives of a node, each is defined by the schema, allowed at that location, not repeated unless repeatable, only given arguments it defines, and given all its required arguments.", "quantifier": "all directive lists and schemas", "why_tests_cant": "arbitrary directive lists", "anchors": [{"file": "src/Validation.cpp", "symbols": ["ValidateExecutableVisitor::visitDirectives"]}]}
{"id": "C28", "title": "Operation-level rules: unique names, lone anonymous operation, no unused or undefined variables and fragments", "statement": "Validation reports an error exactly when operation names repeat, an anonymous operation is not alone, fragment names repeat, a fragment is unused, or a declared variable is never used.", "quantifier": "all documents", "why_tests_cant": "documents with arbitrarily many definitions", "anchors": [{"file": "src/Validation.cpp", "symbols": ["ValidateExecutableVisitor::visit", "ValidateExecutableVisitor::visitOperationDefinition", "ValidateExecutableVisitor::getErrors"]}]}
{"id": "C29", "title": "Wrapped schema types are interned under concurrency", "statement": "For any number of threads concurrently calling Schema::WrapType, every call for the same kind and type returns the same wrapper object, wrappers for different arguments differ, and the number of wrappers never exceeds the number of distinct requests.", "quantifier": "every interleaving of any number of threads", "why_tests_cant": "double-checked locking under shared_mutex is only wrong for particular schedules", "anchors": [{"file": "src/Schema.cpp", "symbols": ["Schema::WrapType"]}, {"file": "include/graphqlservice/internal/Schema.h", "symbols": ["Schema"]}]}
{"id": "C30", "title": "Schema registry lookups return what was added", "statement": "After any sequence of AddType calls LookupType(name) returns the type most recently added under that name and throws a schema_exception naming the type otherwise; types() lists additions in order; supportsIntrospection, query/mutation/subscription types and directives reflect what was added.", "quantifier": "every sequence of registrations", "why_tests_cant": "the registry is a sorted index over a growing list", "anchors": [{"file": "src/Schema.cpp", "symbols": ["Schema::AddType", "Schema::LookupType", "Schema::types"]}]}
{"id": "C31", "title": "Introspection reflects the schema faithfully", "statement": "The __Type/__Field/__Directive objects report for every type exactly the kind, name, fields, interfaces, possible types, enum values, input fields and wrapped type in the schema, null where the specification requires null, and omit deprecated fields and enum values exactly when includeDeprecated is false.", "quantifier": "all schemas and types", "why_tests_cant": "arbitrary schemas", "anchors": [{"file": "src/Introspection.cpp", "symbols": ["introspection::Type", "introspection::Field", "introspection::Schema"]}, {"file": "src/Schema.cpp", "symbols": ["BaseType", "ObjectType", "EnumType"]}]}
{"id": "C32", "title": "Error documents carry message, locations and path faithfully", "statement": "Every structured error appears in the errors list in order with its message, its location when known and its path with list indices and field names in root-to-leaf order; parsing a service response on the client returns the same list of errors and the same data.", "quantifier": "all lists of structured errors", "why_tests_cant": "arbitrary messages, paths and locations", "anchors": [{"file": "src/GraphQLService.cpp", "symbols": ["buildErrorValues", "buildErrorPath", "addErrorLocation", "addErrorPath"]}, {"file": "src/GraphQLClient.cpp", "symbols": ["parseServiceResponse"]}]}
{"id": "C33", "title": "Client variable serialisation and service argument extraction are inverse", "statement": "A client value serialised with ModifiedVariable under a modifier stack and read by the service with ModifiedArgument under the same stack yields the same value; a service result converted under a modifier stack and parsed on the client with ModifiedResponse yields the same value.", "quantifier": "all values and modifier stacks", "why_tests_cant": "modifier stacks and nested values are unbounded", "anchors": [{"file": "include/graphqlservice/GraphQLClient.h", "symbols": ["ModifiedVariable", "ModifiedResponse"]}, {"file": "include/graphqlservice/GraphQLService.h", "symbols": ["ModifiedArgument", "ModifiedResult"]}]}
{"id": "C34", "title": "Input types are emitted in dependency order", "statement": "For every set of input object types the schema loader either orders them so that every input type another one refers to (under any list or nullable modifiers) is declared before it, as a permutation of the input, or reports a cycle, exactly when a cycle of such references exists, naming a type that leads to it.", "quantifier": "all dependency graphs", "why_tests_cant": "arbitrary graphs", "anchors": [{"file": "src/SchemaLoader.cpp", "symbols": ["SchemaLoader::reorderInputTypeDependencies"]}]}
{"id": "C35", "title": "Type references map to the right modifier stack", "statement": "The type visitor converts every type reference to the base type name and modifier stack that denotes the same nullability and list structure; distinct structures give distinct stacks.", "quantifier": "all type references of any nesting depth", "why_tests_cant": "arbitrary nesting", "anchors": [{"file": "src/GeneratorLoader.cpp", "symbols": ["TypeVisitor"]}, {"file": "src/SchemaLoader.cpp", "symbols": ["SchemaLoader::getOutputCppType", "SchemaLoader::getInputCppType"]}]}
{"id": "C36", "title": "Generated C++ names are never reserved identifiers", "statement": "The safe C++ name produced for any GraphQL name contains no double underscore, does not start with an underscore followed by a capital letter, and leaves already safe names unchanged.", "quantifier": "all GraphQL names", "why_tests_cant": "all strings", "anchors": [{"file": "src/SchemaLoader.cpp", "symbols": ["SchemaLoader::getSafeCppName"]}]}
{"id": "C37", "title": "String literals denote the characters they spell", "statement": "The value delivered for a string literal (quoted or block) is the sequence of characters the GraphQL specification assigns to it: escapes replaced by the characters they denote, unicode escapes encoded in UTF-8, and any other character unchanged.", "quantifier": "all string literals", "why_tests_cant": "all strings and escape sequences", "anchors": [{"file": "src/SyntaxTree.cpp", "symbols": ["ast_node::unescaped_view", "ast_action"]}, {"file": "src/GraphQLService.cpp", "symbols": ["ValueVisitor::visitStringValue"]}]}
{"id": "C38", "title": "Parsing is total and its syntax trees are well formed", "statement": "Parsing any text terminates with either a syntax tree or an error, and every tree it produces has for each node the children that the visitors read unconditionally, so no visitor ever dereferences a missing child.", "quantifier": "all input texts", "why_tests_cant": "all strings", "anchors": [{"file": "src/SyntaxTree.cpp", "symbols": ["parseString"]}, {"file": "include/graphqlservice/internal/Grammar.h", "symbols": ["document"]}]}
{"id": "C39", "title": "Response documents have the GraphQL shape", "statement": "Every document returned by Request::resolve is a map whose first entry is data and which contains an errors entry exactly when at least one error was raised, in which case it is a non-empty list.", "quantifier": "all requests", "why_tests_cant": "all documents, resolvers and failures", "anchors": [{"file": "src/GraphQLService.cpp", "symbols": ["Request::resolve", "buildErrorValues"]}]}
{"id": "C40", "title": "Field arguments and directives reach the accessor exactly as written", "statement": "An accessor receives for each argument literal the response value of that literal with variables replaced by their values, each argument once, and directive parameters merged with the innermost occurrence winning.", "quantifier": "all argument literals and variable maps", "why_tests_cant": "nested literals of unbounded depth", "anchors": [{"file": "src/GraphQLService.cpp", "symbols": ["ValueVisitor", "SelectionVisitor::visitField", "DirectiveVisitor"]}]}
{"id": "C41", "title": "Declared argument and input field defaults", "statement": "When a field argument or input field with a default value in the schema is absent, the accessor receives the default; when a value is given, the accessor receives that value, and a value of the wrong type is reported as an error rather than replaced.", "quantifier": "all input types, modifier stacks, default values and argument maps", "why_tests_cant": "every combination of nullability, default and provided value", "anchors": [{"file": "src/SchemaGenerator.cpp", "symbols": ["Generator::getArgumentDeclaration", "Generator::getArgumentDefaultValue"]}, {"file": "include/graphqlservice/GraphQLService.h", "symbols": ["ModifiedArgument::find"]}]}
{"id": "C42", "title": "A parsed document is validated by the Request that executes it, each time with the same result", "statement": "Request::validate of a parsed document returns the errors the document has for that Request's schema, no matter how often and with which Request the same peg::ast was validated before.", "quantifier": "all sequences of validate calls on shared parsed documents and several Requests", "why_tests_cant": "the result depends on the history of a flag stored in the parsed document", "anchors": [{"file": "src/GraphQLService.cpp", "symbols": ["Request::validate"]}, {"file": "include/graphqlservice/GraphQLParse.h", "symbols": ["peg::ast"]}]}
{"id": "C43", "title": "Notified subscribe and unsubscribe", "statement": "subscribe(launch, ...) and unsubscribe(launch, key) resolve the subscription's selections on the default Subscription object with ResolverContext::NotifySubscribe / NotifyUnsubscribe; if that fails the call fails and the set of subscriptions is what it was before, otherwise the effect is that of the call without notification.", "quantifier": "every history of calls, document, accessor behaviour, launch policy and schedule of the notification", "why_tests_cant": "what happens depends on what the user's accessors do while notified, on the schedule and on the whole history before", "anchors": [{"file": "src/GraphQLService.cpp", "symbols": ["Request::subscribe", "Request::unsubscribe"]}, {"file": "doc/subscriptions.md", "symbols": ["ResolverContext::NotifySubscribe"]}]}
{"id": "C44", "title": "Which documents can be subscribed and what for", "statement": "subscribe accepts a valid document whose selected operation is a subscription, and registers it for the one root field of that operation with the argument and directive values of the given variables; any other document makes subscribe throw the schema errors that describe the problem and registers nothing.", "quantifier": "every document, operation name and variables map, after every history", "why_tests_cant": "unbounded documents, and the visitor is a second implementation of field collection that must agree with execution", "anchors": [{"file": "src/GraphQLService.cpp", "symbols": ["SubscriptionDefinitionVisitor", "Request::subscribe"]}]}
{"id": "C45", "title": "A selection set is executed field by field", "statement": "The data of a response is a map with exactly the response keys of the selection set that are not dropped, in order of first appearance (fragments expanded, @skip and @include applied); the value of each key is the completed answer of the accessor of that field of the object, called with the argument, directive and fragment-directive values of the document and the path of the field, recursively for sub-selections; a field that is unknown or whose accessor throws is null; the errors list has the errors of the fields in the same order, each with location and path.", "quantifier": "every document, variables, object graph, accessor behaviour, launch policy and schedule", "why_tests_cant": "unbounded documents and object graphs, every schedule", "anchors": [{"file": "src/GraphQLService.cpp", "symbols": ["Object::resolve", "SelectionVisitor", "Request::resolve"]}, {"file": "include/graphqlservice/GraphQLService.h", "symbols": ["ModifiedResult"]}]}
{"id": "C46", "title": "The generated service has the schema of the document", "statement": "When schemagen accepts a schema document, the GetSchema function of the code it generates builds a schema with exactly the types, members, descriptions, deprecations, default texts, operations and directives that the document declares (extensions merged in document order, possible types of an interface = the objects that implement it), together with the built-in scalars and the introspection types and directives; so a client's introspection query sees the schema of the document.", "quantifier": "every schema document that schemagen accepts, with and without --no-introspection and --separate-files", "why_tests_cant": "unbounded documents; the generated code is only compiled for a few samples", "anchors": [{"file": "src/SchemaLoader.cpp", "symbols": ["SchemaLoader::visitDefinition", "SchemaLoader::validateSchema"]}, {"file": "src/SchemaGenerator.cpp", "symbols": ["Generator::outputSource", "Generator::outputObjectIntrospection", "Generator::getIntrospectionType"]}, {"file": "src/Schema.cpp", "symbols": ["Schema::AddType", "Schema::LookupType", "Schema::WrapType"]}]}
{"id": "C47", "title": "schemagen accepts exactly the acceptable schema documents", "statement": "schemagen loads a schema document if and only if it is acceptable: only type system definitions, default values that are 32 bit integers where integers and not null where null is not allowed, no built-in type redefined, every field, argument and input field has a type of a kind that fits, implemented interfaces are interfaces, union members and operation types are objects, there is a query type, and input types do not contain each other. Otherwise it ends with a std::runtime_error, never otherwise. What it hands to the code generator are the declared types with their members in order, each with its name, type modifiers, description, kind and default value.", "quantifier": "every schema document", "why_tests_cant": "unbounded documents; acceptance is a statement about all the ways a document can be wrong", "anchors": [{"file": "src/SchemaLoader.cpp", "symbols": ["SchemaLoader::SchemaLoader", "SchemaLoader::visitDefinition", "SchemaLoader::validateSchema", "SchemaLoader::fixupOutputFieldList", "SchemaLoader::fixupInputFieldList", "SchemaLoader::reorderInputTypeDependencies"]}, {"file": "src/GeneratorLoader.cpp", "symbols": ["TypeVisitor", "DefaultValueVisitor"]}]}
{"id": "C48", "title": "The parser accepts exactly the executable documents and reads what they spell", "statement": "parseString of a text gives the definitions (operations, fragments, selections, arguments, directives, variables, types and literals, in order, with the locations where they begin) that the text spells according to the GraphQL grammar; a text that spells no executable document is rejected with a parse_error, or (if it spells a mix with type system definitions) parsed with the type system definitions marked so that validation rejects them. No text spells two documents.", "quantifier": "all texts and all documents", "why_tests_cant": "the language is infinite; acceptance of every spelling of every document, and rejection of every other text, is not testable", "anchors": [{"file": "include/graphqlservice/internal/Grammar.h", "symbols": ["executable_document"]}, {"file": "src/SyntaxTree.cpp", "symbols": ["parseString", "executable_selector", "ast_node"]}]}
{"id": "C49", "title": "Parsing time is polynomial in the length of the document", "statement": "The work parseString does (match attempts of the parsing machine) is bounded by a polynomial in the length of the text, so that a short document from an untrusted client cannot occupy the service for an unbounded time.", "quantifier": "all texts", "why_tests_cant": "a bound for all inputs; slow inputs have to be found first", "anchors": [{"file": "include/graphqlservice/internal/Grammar.h", "symbols": ["type_name_content", "nonnull_type", "list_type"]}, {"file": "src/SyntaxTree.cpp", "symbols": ["parseString"]}]}
{"id": "C50", "title": "A validated request goes wrong only in accessors", "statement": "If validation accepts a document, the values given for the variables have the declared types, and the accessors of the service return what the schema declares, then the response has data in which every entry is a selected field with a value of the field's type (null only where the schema allows it, or where an accessor failed at that path), and every error in the response tells of an accessor that failed.", "quantifier": "all schemas, documents, operations, variables, services whose accessors respect the schema (also failing ones), schedules", "why_tests_cant": "relates two separate components (validation and execution) over all schemas, documents and services", "anchors": [{"file": "src/Validation.cpp", "symbols": ["ValidateExecutableVisitor"]}, {"file": "src/GraphQLService.cpp", "symbols": ["SelectionVisitor", "ValueVisitor", "DirectiveVisitor", "Object::resolve", "Request::resolve"]}]}
{"id": "C51", "title": "Schema documents are read from their text as they are spelled", "statement": "A text handed to schemagen (or to parseSchemaString) is accepted exactly if it spells a schema document of the GraphQL grammar, and the definitions that the generator then works with are the ones spelled there: kinds, names, descriptions, interfaces, members, fields, arguments, types with all their wrappers, default values, directives with their positions, directive locations and repeated extensions, in order. A text that spells none is refused with an error that says where. No text makes the loader look for a part of the tree that is not there.", "quantifier": "every text (any sequence of bytes, of any length and nesting) and every list of type system definitions it may spell", "why_tests_cant": "There are infinitely many texts, with comments, blanks and commas at any place where something ignorable is allowed and with nested types and values of any depth; a test compares single texts with the trees expected for them.", "anchors": ["include/graphqlservice/internal/Grammar.h: schema_document, type_system_definition, type_system_extension", "src/SyntaxTree.cpp: parseSchemaString, parseSchemaFile, schema_selector", "src/SchemaLoader.cpp: SchemaLoader::SchemaLoader, visitDefinition, getOutputFields, getInputFields"]}
{"id": "C52", "title": "A generated client reads every response of a service of its schema", "statement": "For a schema and a request document that clientgen accepts, the generated Response struct has exactly one member for every response key of the operation, fragments expanded, with the C++ type that belongs to the field's type (std::optional for nullable, std::vector for lists, a nested struct for composite types, the schema's texts for enums). If a service of that schema answers the operation and no accessor fails, parseServiceResponse and the generated parseResponse succeed on the answer, directly or after a trip through JSON, and the struct shows the data: every entry of every object of the response is in the member of its key, with its value, and the members whose keys are not in the response keep their initial values.", "quantifier": "every schema, every accepted document and operation (any nesting of selections, fragments, aliases and list types), every service typed by the schema, all variables and all responses of the service", "why_tests_cant": "The generated code differs for every schema and operation and reads data of unbounded size and depth whose runtime types vary; the unit tests run three generated clients on hand-written responses.", "anchors": ["src/RequestLoader.cpp: RequestLoader::RequestLoader, findOperation, SelectionVisitor::visitField, visitFragmentSpread, visitInlineFragment, mergeFragmentFields, unwrapSchemaType, getOutputCppType", "src/ClientGenerator.cpp: outputRequestDeclaration, outputResponseFieldType, outputSource, outputModifiedResponseImplementation", "src/GraphQLClient.cpp: parseServiceResponse, ModifiedResponse::parse", "include/graphqlservice/GraphQLClient.h: ModifiedResponse"]}
{"id": "C53", "title": "clientgen validates operations against the schema that the service has", "statement": "For one schema document and the same --no-introspection setting, the schema that clientgen builds to check the operations of a client is the schema that the generated service has at run time, except that descriptions may differ. For every request document clientgen therefore reports exactly the errors, in the same order, that the service would report, and the generated client may mark its document as already validated: a document that clientgen accepts has no errors at the service.", "quantifier": "every schema document that the loader accepts, both settings of the flags, every request document and every earlier history of documents validated by the service", "why_tests_cant": "Two separate programs build the schema in different ways from documents of unbounded size, and equality of the reported errors ranges over all request documents; the unit tests compare neither schema nor errors of the two.", "anchors": ["src/RequestLoader.cpp: RequestLoader::buildSchema, addTypesToSchema, getSchemaType, validateRequest", "src/ClientGenerator.cpp: outputSource (ast.validated = true)", "src/SchemaGenerator.cpp: outputTypeImplementation of AddTypesToSchema", "src/Validation.cpp: ValidateExecutableVisitor", "src/GraphQLService.cpp: Request::validate"]}
{"id": "C54", "title": "A generated client sends the document that clientgen validated", "statement": "The text that GetRequestText() of a generated client returns is the request file laid out differently: parsed, it is the document that clientgen read from the file and validated, in everything but the positions, and GetRequestObject() may therefore mark it as validated: the service finds no error in it. Validation in general does not depend on the layout of a document: two documents that differ only in positions get the same error messages in the same order.", "quantifier": "every request file that clientgen accepts, every schema, every earlier history of documents validated by the service", "why_tests_cant": "The text is cut into lines, indented and put into a raw string literal; whether that preserves the document depends on every place where a line feed, a comment, a string literal or the literal's delimiter can occur in a document of unbounded size. The unit tests have a few well-behaved request files.", "anchors": ["src/RequestLoader.cpp: RequestLoader::trimWhitespace, getRequestText", "src/ClientGenerator.cpp: Generator::outputGetRequestImplementation (GetRequestText, GetRequestObject)", "src/SyntaxTree.cpp: peg::parseString, parseFile", "src/Validation.cpp: ValidateExecutableVisitor", "src/GraphQLService.cpp: Request::validate"]}
{"id": "C55", "title": "How a request is laid out does not matter for what the service does and answers", "statement": "Two request texts with the same tokens - different blanks, commas and comments between them - are the same request: both are parsed or neither is, they are read as the same document except for positions, validation reports the same messages in the same order, the service's accessors are called in the same order with the same arguments, and the responses are the same except for the \"locations\" of errors.", "quantifier": "every pair of request texts that differ only in ignorable text, every schema, service, state of the service, launch mode and set of variables; every schedule of the execution, finished or not", "why_tests_cant": "Positions are carried by every node of the syntax tree into validation, execution and error reports, and ignorable text can be anywhere in a text of unbounded size; that nothing but the reported locations depends on it is a statement about all pairs of texts and all executions. The unit tests compare single layouts with expected results.", "anchors": ["src/SyntaxTree.cpp: peg::parseString", "include/graphqlservice/internal/Grammar.h: ignored, executable_document", "src/Validation.cpp: ValidateExecutableVisitor", "src/GraphQLService.cpp: SelectionVisitor, OperationDefinitionVisitor, Request::resolve, buildErrorValues", "include/graphqlservice/GraphQLService.h: schema_location, schema_error"]}
{"id": "C56", "title": "A generated client's variables reach the service as they were set", "statement": "For a request that clientgen accepts, the generated Variables struct has a member for each variable of the operation; exactly the input types and enums its variables need are declared, once each, and each before it is used; serializeVariables gives a message with an entry for each variable, which the service accepts, and the arguments that the service's accessors read from it - directly or after a trip through JSON - are the values of the members. The response is then one the client's parser reads.", "quantifier": "every schema, request document, operation and value of the generated Variables struct; every service, state, launch mode and schedule of the execution", "why_tests_cant": "The declarations are ordered by a loop over a dependency graph of unbounded size, and the message is a recursive encoding of values of arbitrary generated types; that both sides of the wire agree is a statement about all schemas, requests and values. The unit tests fix one schema and its expected output.", "anchors": ["src/RequestLoader.cpp: collectVariables, collectInputTypes, reorderInputTypeDependencies, collectEnums", "src/ClientGenerator.cpp: outputRequestComment, struct Variables, serializeVariables", "include/graphqlservice/GraphQLClient.h: ModifiedVariable", "include/graphqlservice/GraphQLService.h: ModifiedArgument"]}
{"id": "C57", "title": "A service that schemagen generates answers as its schema says", "statement": "For a schema document that schemagen accepts, the generated object classes, filled in by accessors that return values of the C++ types the schema asks for, give a service that is typed by the schema of the document: an accessor is called with C++ values of the types of the declared arguments (an argument left out has its default), what it returns is a result of the declared type, and fields that throw do so only where the user's accessors do. So the data of the response to an accepted request has the shape and types of request and schema, with null only where the schema allows it, and a client that clientgen generates reads it.", "quantifier": "every schema document that schemagen loads, every implementation of the accessors (all user objects, arguments and results), every accepted request, variables, launch mode and schedule", "why_tests_cant": "The generated code differs for each schema; the tests have the code of a few samples with fixed accessors. That the argument reading, the converters and the resolver maps agree with the schema holds by the construction of the generator, for all documents.", "anchors": ["src/SchemaGenerator.cpp: getArgumentDeclaration, getArgumentDefaultValue, getResultAccessType, getTypeModifiers, outputObjectImplementation, outputInputFieldDeclaration", "include/graphqlservice/GraphQLService.h: ModifiedArgument::require/find, ModifiedResult::convert", "src/SchemaLoader.cpp: getInputCppType, getOutputCppType"]}
{"id": "C58", "title": "What schemagen does and does not check about a schema document", "statement": "A service generated from a document that schemagen accepts registers a well-formed schema exactly when the document keeps to a short list of rules that schemagen does not check: no field, argument or input field is declared twice in its type, no name is reserved, arguments of fields with a built-in result type are input types, no directive is declared again. Everything else validation, execution and clients rely on is checked: no input object contains itself through non-null fields or at all, enum values are distinct, result and argument types exist and are of the right kind, operation types are object types. With interfaces fulfilled as the GraphQL specification says, every accepted request gets a response of the shape and types of the document, with no further assumption about the schema.", "quantifier": "every schema document that schemagen loads (any types, fields, arguments, interfaces, extensions), with and without introspection, in one file or several; then every implementation of the accessors, request, variables and schedule", "why_tests_cant": "The checks are spread over the loader's fix-up passes, and what they leave out shows only with documents that nobody wrote a test for; that the remaining conditions are enough for all documents needs a proof about the loader, the generator, the registry and validation together.", "anchors": ["src/SchemaLoader.cpp: validateSchema, fixupOutputFieldList, fixupInputFieldList, reorderInputTypeDependencies", "src/SchemaGenerator.cpp: AddTypesToSchema", "src/Validation.cpp: ValidateExecutableVisitor", "src/Schema.cpp: Schema::AddType"]}
{"id": "C59", "title": "Events of subscriptions have the types of the schema", "statement": "For a service whose accessors respect the schema, every document a subscription callback receives has data of the shape and types that the subscription's operation asks for; the value is null where the schema forbids it only where an accessor failed, and every error tells of a failing accessor. An event reaches all its recipients: nothing that resolving does ends the delivery early. The struct that clientgen declares for the subscription reads every such event, directly or after it was written as JSON and read again. (Not so for objects of another type passed to deliver, nor for variables that were not passed.)", "quantifier": "every schema, service, sequence of subscribe, unsubscribe and deliver calls, filter, launch policy, schedule of the callbacks, and subscription document", "why_tests_cant": "The events depend on the history of calls, on all documents subscribed so far and on the schedule; the claim joins the validation at subscription with the execution at each later delivery.", "anchors": ["src/GraphQLService.cpp: Request::subscribe, Request::deliver, SubscriptionDefinitionVisitor, SelectionVisitor", "src/Validation.cpp: ValidateExecutableVisitor", "src/RequestLoader.cpp: ResponseVisitor", "src/GraphQLClient.cpp: parseServiceResponse"]}
{"id": "C60", "title": "Callbacks may call the Request while an event is delivered", "statement": "With the default (deferred) launch policy a subscription callback may itself subscribe, unsubscribe and deliver. Such calls, nested to any depth, have the effects and answers that they would have after the delivery. Every delivery, nested or not, calls the subscriptions that were there when deliver was called, in the order of their keys, each with the document of its own operation; all of them unless a callback throws, whatever the callbacks do. (A subscription that an earlier callback of the same delivery removed is therefore still called, even when its key has been given to another.)", "quantifier": "every history of calls, every behaviour of the callbacks (any calls, nested to any depth, exceptions), service, document and filter", "why_tests_cant": "The callbacks are user code that can make any calls at any point of any delivery; the claim is about all such programs.", "anchors": ["src/GraphQLService.cpp: Request::deliver, Request::subscribe, Request::unsubscribe", "include/graphqlservice/GraphQLService.h: SubscriptionCallback, Request"]}
{"id": "C61", "title": "Default values in the code that schemagen writes", "statement": "The lambda that schemagen writes for the default values of the arguments of a field (and of the fields of an input type) compiles, and when it has run the variable is a map of exactly the arguments whose default value is not null, in the order of the schema, each with the value that the schema document gives it, however deep its lists and objects are nested.", "quantifier": "every list of arguments the loader accepts, every default value (nested to any depth), every number and text in it", "why_tests_cant": "Default values are unbounded trees with arbitrary texts and numbers; each is printed as C++ and read back by a compiler, and only a proof covers all of them.", "anchors": ["src/SchemaGenerator.cpp: Generator::getArgumentDefaultValue, Generator::outputObjectImplementation (defaultArguments), Generator::outputSource (defaultValue)", "src/SchemaLoader.cpp: DefaultValueVisitor", "samples/unified/TodaySchema.cpp: Query::resolveAppointmentsById"]}
