# Formal model of cppgraphqlgen in Rocq (Coq 8.16.1)

## Approach

* The model is executable Gallina, written function by function from /repo; each definition has a comment citing file
  and lines. Model files (`*Model.v`), proof files (`*Proofs.v`) and statement files (`*Props.v`: only theorem statements,
  `exact`, `Print Assumptions` and non-vacuity `Example`s) are separate. Specifications that a statement uses are in
  `*Spec.v` or at the top of the `*Props.v` file and do not use the model's helpers.
* C++ control flow: `result A := Ok a | Throw exn | UB`. Exceptions carry the C++ class; `UB` marks undefined behaviour
  (dereferencing an absent child, reading a moved-from object, integer overflow in atoi), so "no UB" is a provable claim.
* `std::string` is Coq `string` (a list of bytes). `std::map`/`std::vector` are lists with the library's documented
  behaviour; `internal::sorted_map`/`sorted_set` are modelled themselves (vector + binary search). `IntType` is `Z` with the 32 bit range
  a predicate/wrapping written where the code depends on it, `FloatType` is `SpecFloat.spec_float` (binary64).
* External components (PEGTL matcher, RapidJSON reader/writer, std::async, std::shared_mutex, user accessors) are modelled
  by their documented contract and listed in the trusted base below.
* If the faithful model violates a property, the property is stated in full and refuted (`…_refuted`, with a concrete witness),
  and the strongest true version is proved as `…_partial` (or with the exact side condition) beside it.

## Plan per property

| id | what is modelled | how proved |
|----|------------------|-----------|
| C01 | toBase64/fromBase64 byte loops, alphabet tables | induction on 3-byte groups; finite sweeps lifted for the bit-twiddling |
| C02 | same | characterisation of accepted strings: decode s = Ok bs -> s is encode bs up to trailing padding; canonical-only acceptance is refuted |
| C03 | sorted_map/sorted_set as sorted vectors with lower/upper bound | refinement to an association function by induction over operation lists |
| C04 | shorter_or_less | direct proof |
| C05 | Value Map with member vector + sorted index of positions | invariant by induction on operations, refinement to ordered finite map |
| C06 | get/set/release accessors | case analysis per type, throw cases leave state unchanged |
| C07 | operator==, copy constructor | structural induction over nested values |
| C08 | toJSON as writer events; RapidJSON as the identity on well-formed event streams; ResponseHandler stack machine | induction over nested values |
| C09 | ResponseHandler numbers/keys, parseJSON | invariants on the handler stack |
| C10 | ModifiedArgument templates | induction on modifier stack against a declarative coercion spec |
| C11 | DirectiveVisitor, shouldSkip | equivalence with spec; refuted for both directives together, exact condition proved |
| C12,C13,C15,C39,C40 | SelectionVisitor, Object::resolve, Request::resolve | mutual induction over fuel/rose trees against a declarative collect-fields spec |
| C14 | ModifiedResult::convert list | induction; null-at-failed-index refuted |
| C16 | futures as task graph; small step scheduler | confluence: any schedule gives the deterministic result |
| C17 | effect trace of execution | refuted with witness; what order is guaranteed is proved |
| C18,C19 | operation/variable selection | induction over definitions |
| C20,C21,C43,C44 | SubscriptionDefinitionVisitor, Request::subscribe/unsubscribe/deliver with and without notification, both registry indices | invariant over histories of calls, refinement to the list of live subscriptions computed from the calls and answers alone |
| C22–C28 | ValidateExecutableVisitor as state-passing functions | induction over documents; several refuted with witnesses |
| C29 | Schema::WrapType as small-step threads on a shared_mutex | invariant over all interleavings |
| C30 | schema::Schema and the type classes: registration, LookupType, WrapType, AddFields, AddInterfaces... as a heap | invariant over construction histories; what a lookup shows is computed from the calls alone |
| C31 | the introspection objects and the fields __schema and __type over the registry (IntroModel.v); a service that contains them (hosts) | simulation between the registry's objects and the description of a schema (IntroSpec.shows) under the big-step execution of C45; the standard introspection query computed once for all schemas; read-back of a complete registry |
| C32 | error values, client parseServiceResponse | round trip |
| C33 | Modified* templates | induction over modifier stack |
| C34 | reorderInputTypeDependencies | topological sort correctness |
| C35 | TypeVisitor | induction on type references |
| C36 | getSafeCppName | induction on strings |
| C37 | string grammar, the selectors' nodes and unescaped_view, as part of the parser model | the delivered text of every spelling is computed from C48; equal to the denoted text (ParseStringSpec.v) exactly for some escapes; refuted for the others and for block strings |
| C38 | PEG machine (Peg.v), Grammar.h (GrammarModel.v, generated by tools/grammar.py and checked rule by rule by tools/check_grammar.py), selectors, parseString/parseSchemaString (ParserModel.v), the children the visitors read (TreeModel.v) | termination: a measure on (rest of text, rank of rule) since no rule of the grammar is left recursive; well-formedness by inversion of the matching relation |
| C48 | the same | ParseSpec.v relates documents to the texts that spell them; completeness by induction on the spelling, soundness by induction on the match |
| C49 | number of match attempts of the PEG machine (PegCost.v) | lower bound by induction on the nesting of a list type |
| C50 | validation (C22-C28) and execution (C45) together: what it means for values, arguments, results of accessors and response data to fit a type of the schema (TypedSpec.v, without the visitors) | type soundness: values of valid literals fit (induction on literals), directives decide, the expansion of a selection set is executable (induction on the expansion), then induction on checked selection sets; refuted without the side conditions by four accepted documents. Fields that repeat a response key, which the validator only compares with the first one, must be right by themselves: ValidationRepeats.v (repeats_ok) says exactly that, and derives from it that every field is (used by C25, C26, C50, C52, C56-C58) |
| C51 | parseSchemaString's grammar and selectors as for C38, SchemaLoader's reading of the tree (SdlTree.v: visitDefinition and what it calls, up to the lists that LoaderModel.v starts from) | SdlSpec.v relates lists of definitions to the texts that spell them; soundness by inversion of the match (SdlSound.v), completeness by running the grammar on a spelling (SdlComplete.v); the repository's schema texts are computed and are the ones C46 speaks of (SdlTexts.v is written by tools/texts.py from /repo) |
| C52 | RequestLoader's SelectionVisitor, findOperation and validateRequest (ClientModel.v), the generated structs and parse functions as in ModifiersModel.v; the schema is the one the service was generated from | ClientSpec.v says which struct belongs to an operation (declares) and when a C++ value shows a response value (shows); induction over the accepted selection sets gives at once the members that the visitor makes, their types and that they read whatever fits the field; composed with C50 (the service's data fits the schema) and C08 (JSON) |
| C53 | RequestLoader.cpp:265-638 buildSchema, addTypesToSchema, getSchemaType and validateRequest (ClientSchemaModel.v) on the registry of RegistryModel.v; the service's schema is that of GenModel.v | the steps of addTypesToSchema are followed on the represented schema (GenRun.rep), giving the same types as the generated code does; a registry represents one schema (represents_once); validation is shown to depend on a schema only up to descriptions, deprecation and order (ValidationAlike.v, congruence through the whole visitor) |
| C54 | RequestLoader.cpp:640-658 trimWhitespace, ClientGenerator.cpp:686-716 (the getline loop, the raw string literal) and how a C++ compiler finds the end of a raw string literal (RequestTextModel.v) | the relations of ParseSpec.v are shown to be closed under two tabs after every line feed and under trimming (RequestTextProofs.v), so the new text spells the same document up to positions; the visitor of ValidationModel.v commutes with forgetting positions (ValidationLayout.v), composed with C48 and C53 |
| C55 | the parser, validation and execution models as they are; Relaid.v defines two texts with the same tokens | a simulation between the computations of two documents that differ in positions (ExecLayout.v, LayoutProps.v); the relations of ParseSpec.v are closed under relaying a text (RelaidProofs.v); composed with C48 and C54. Partial: where this parser demands or forbids ignorable text although the GraphQL specification does not, texts with the same tokens are treated differently (_refuted) |
| C56 | RequestLoader.cpp:740-936 (collectVariables, collectInputTypes, reorderInputTypeDependencies, collectEnums) and the generated struct Variables and serializeVariables (ClientGenerator.cpp:242-292, 539-633), in VariablesModel.v | the collected types are the closure of `contains`, the loop terminates and orders them because the graph has no cycles (VariablesProofs.v, VariablesOrder.v); serialized members are values of the variables' types and are read back by the service's argument parser (VariablesCpp.v, VariablesSent.v); composed with C18, C50, C52. Partial: dependencies under non-null or list types are not counted, and variables that are not input objects, or input objects inside others, give code that is not compiled (_refuted) |
| C57 | the object classes that schemagen generates: constructors (type names, resolver map), resolvers (reading the arguments, converting the result), input structs and defaults (SchemaGenerator.cpp:600-781, 1370-1600, 1718-1943), around accessors written by a user, in GenServiceModel.v | the loaded document and its schema (C46) agree member by member (GenServiceLink.v); arguments that fit are read as values of their C++ types (GenServiceArgs.v), converted results fit (GenServiceProofs.v), the introspection objects are typed by the standard types (GenServiceIntro.v), failures come from the accessors only (GenServiceFail.v); composed with C50, C52, C56. Partial: defaults with more than six digits or of the wrong type, arguments of introspection types, null pointers and objects of other classes are not kept out by schemagen or the C++ types (_refuted) |
| C58 | nothing new: the loader (LoaderModel.v), the generated AddTypesToSchema (GenModel.v), the registry (RegistryModel.v) and the schema validation reads (SchemaModel.v) | spec: `sound` and `fulfils` in GenSound.v, on the document alone. `schema_wf` of the registered schema holds iff the document is `sound` (both directions, from C46 and the characterization of acceptance in C47); the C57 theorems with their hypotheses about the schema discharged from the document. Counterexamples for each rule that schemagen does not check |
| C59 | nothing new: subscriptions (SubscriptionModel.v), validation, execution and clients | what C50 and C52 say of queries, for the events in any history of calls: joins C21 (which document an event gives) and C44 (what was checked at subscription) with C50_execution; that deliveries complete uses monotonicity in the stack. Counterexamples: an object of another type, a variable that was not passed |
| C60 | callbacks that call the Request (ReentrantModel.v): calls with the calls nested in them, mutually inductive | every nested execution is a flat history (mutual induction), so that C20, C21, C43, C44 and C59 apply; existence of a complete delivery for any behaviour of the callbacks. Counterexample: unsubscribed and still called |
| C61 | the text of the default values in the generated code, a lexer for the C++ that it uses, a reader of its statements and an interpreter (DefaultCodeModel.v) | the tokens of the text (compositional lexing lemmas, decimal printing of integers and of doubles with %g); induction on the value for the execution; the loader's visitor makes such values (induction on literals). What %g prints of a double: exponent, rounding to six digits and the text read back (DefaultCodeDigits.v); that a double with at most six digits is read back as itself, by Flocq's error bound (DefaultCodeRounding.v). Example: the text of the sample. Counterexamples: a seventh significant digit is lost; a string with the end of the raw string literal makes code that does not compile, or that does something else |
| C46 | the loader (SchemaLoader.cpp, whole) and the part of SchemaGenerator.cpp that writes AddTypesToSchema, as a function to a small language of generated statements; the run of those statements on the registry of C30 | simulation of the run on schemas (GenRun.v), the effect of the generated statements (GenEval.v), invariant over the prefixes of the document (GenLoad.v), permutation to the declared schema (GenMain.v). GenSamples.v: on the documents in /repo/samples the model generates, statement for statement, the code that is in /repo |
| C47 | the same loader model | AcceptSpec.v says which documents are acceptable and what is kept of them, without the loader's functions; equivalence proved stage by stage: the visit of the definitions (AcceptProofs.v, prefix invariant of C46 plus an exact account of the type table), then each check of validateSchema; C34 for the cycles; the kept members by composing the visit and the fixups (AcceptLoaded.v) |
| C41 | generated-code defaults (ModifiedArgument::find with a default) | case analysis against the coercion spec |
| C42 | Request::validate with the flag in peg::ast | induction over histories of validate calls |
| C45 | Object::resolve + SelectionVisitor + ModifiedResult together | big-step relation `executes` (ExecBigSpec.v), soundness by induction on nesting depth; every schedule by C16's confluence |

## Trusted base

* Coq 8.16.1's kernel (and `vm_compute`, used for closed examples and finite sweeps). `Print Assumptions` of every theorem of
  MANIFEST.json (tools/assumptions.sh runs it for all of them after a build) prints "Closed under the global context": no axiom, neither of ours nor of a library, is
  used, except by C61_six_digit_doubles, C61_exact_partial and C61_document_exact_partial. Their proofs go through the real numbers (Flocq's proof that division rounds correctly), and Print Assumptions
  lists for them the four axioms of the standard library `ClassicalDedekindReals.sig_not_dec`, `ClassicalDedekindReals.sig_forall_dec`,
  `FunctionalExtensionality.functional_extensionality_dep` and `Classical_Prop.classic`; their statements do not mention reals. (vcheck lists `Coq.ssr.ssrunder.Under_rel.*`: module-type fields loaded with the standard library's ssreflect, used by no theorem here; and `Coq.Reals.Rdefinitions.*`: the sealed definitions of the standard library's real numbers, which only those theorems go through.)
* The reading of the C++ source into Gallina. It is done by hand, function by function; each definition cites file and lines.
  Evaluation order of C++, exceptions and move semantics follow the standard; what is simplified is said in the definition's comment.
* Contracts of what the code calls and the model does not contain:
  - `std::vector`, `std::map`, `std::string`, `std::optional`, `std::variant`, `std::shared_ptr`: their documented value semantics;
    memory exhaustion, iterator invalidation and lifetimes (dangling `std::string_view`, destroyed `Request`) are not modelled.
  - `std::async`/`std::future`/`std::promise`: deferred tasks run at the first `get`/`wait`, async tasks at any time, `get` rethrows. Tasks
    are sequential programs whose steps interleave; accessor calls are atomic steps (two accessors never overlap in time, so
    data races inside user code are out of scope).
  - `std::shared_mutex` (C29): one writer or many readers, in the order the scheduler likes.
  - RapidJSON: the Reader emits the SAX events of a well-formed document, or an error after a prefix of them; the Writer's output
    parses back to the same events for valid UTF-8 (C08_all_strings_refuted shows where this fails).
  - PEGTL (not in /repo): the documented meaning of its combinators (Peg.v: ordered choice, greedy repetition, must raising a
    global failure, lookahead) and of parse_tree (nodes of the selected rules only, fold_one). The position of an error, the depth of
    the C++ stack and the conversion of float literals (`std::stod`, a parameter `atof`) are not modelled. The theorems on execution,
    validation and subscriptions start at the parsed document (Ast.v); C48 links Ast.v with the text, C51 links the definitions of LoaderModel.v with it.
  - user accessors: any function from a state and the call to a new state and an answer (`handler`); for the value theorems the
    answer may not depend on the state (`answers_alone`).

### Modelled

| part of /repo | model |
|---------------|-------|
| src/Base64.cpp, include Base64.h | Base64Model.v |
| include/graphqlservice/internal/Grammar.h, src/SyntaxTree.cpp, SyntaxTree.h | Peg.v (combinators), GrammarModel.v (225 rules), ParserModel.v (entry points, nodes, unescaped_view), TreeModel.v (which children the visitors read; gives Ast.v) |
| include/graphqlservice/internal/SortedMap.h | SortedMapModel.v |
| src/GraphQLResponse.cpp, GraphQLResponse.h | Value.v (values), ResponseModel.v (the class, its index and Writer) |
| src/JSONResponse.cpp | JSONModel.v |
| GraphQLService.h: ModifiedArgument, ModifiedResult, errors; GraphQLClient.h ModifiedVariable/ModifiedResponse, parseServiceResponse | ModifiersModel.v, ErrorModel.v, ExecModel.v |
| src/GraphQLService.cpp: value/directive/fragment/operation visitors, SelectionVisitor, Object::resolve, Request::resolve | ExecModel.v, semantics of tasks ExecSem.v |
| src/GraphQLService.cpp: SubscriptionDefinitionVisitor, Request::subscribe/unsubscribe/deliver | SubscriptionModel.v |
| src/Validation.cpp, Request::validate | SchemaModel.v (schema read by the validator), ValidationModel.v |
| src/Introspection.cpp, src/IntrospectionSchema.cpp:22-590, __schema and __type of the generated query type | IntroModel.v |
| src/Schema.cpp, GraphQLSchema.h | RegistryModel.v (sequential), WrapModel.v (concurrent WrapType) |
| src/SchemaLoader.cpp after the parser, SchemaLoader.h | LoaderModel.v |
| src/SchemaGenerator.cpp: the generated object classes, their resolvers and input structs | GenServiceModel.v |
| src/SchemaGenerator.cpp: the default values as text (getArgumentDefaultValue and the lambdas around it), and how a compiler reads and runs that text | DefaultCodeModel.v (checked against the text in samples/unified/TodaySchema.cpp) |
| src/SchemaGenerator.cpp: AddTypesToSchema, getIntrospectionType, s_names, C++ types of fields; the generated statements | GenModel.v (checked against the six generated files in /repo by GenSamples.v, which tools/samples.py writes) |

### Not modelled

* Coroutines (`await_async`, `AwaitableScalar` with custom awaitables): only `std::launch::async`/`deferred` policies.
* The gather task of `Object::resolve` runs in the visiting task; launch policy and `RequestState` are not shown to accessors;
  the outer `std::async` of `Request::resolve` is merged with the operation's task.
* `subscribe`/`unsubscribe`/`deliver` calls from several threads at once, from filters or accessors, and from callbacks that run on their own
  threads (the registry has no lock). Calls from deferred callbacks, which run after the loop of `deliver`, are modelled in `ReentrantModel.v`.
* Stack overflow: recursion is bounded by a fuel in the executable model; theorems hold for every sufficient fuel or for every fuel.
* Allocation failure, `std::terminate`, signals, locale.
* The text of the generated C++ (clientgen/schemagen output) except AddTypesToSchema, the names and the C++ types of fields (C35, C36, C46), the default values (C61), what the object classes of a service do (C57) and what a client's variables and responses do (C52, C56).
