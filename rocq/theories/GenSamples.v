(** Written by tools/samples.py: the schema documents in /repo/samples and the code in /repo that schemagen generated from them, against the
    model of schemagen. *)
From Verif Require Import Cpp Value Ast ModifiersModel SchemaModel RegistryModel RegistrySpec IntroModel IntroSpec LoaderModel LoaderSpec GenModel GenSpec GenProps.
Local Open Scope string_scope.
Local Open Scope list_scope.
Definition SL : schema_location := mkLoc 0 1.

(** samples/schema.today.graphql *)
Definition today_sdl : list sdl_def :=
 [DefSchema [(OpQuery, "Query"); (OpMutation, "Mutation"); (OpSubscription, "Subscription")];
  DefScalar "ItemCursor" "";
  DefDirective "id" "" [SchemaModel.FIELD_DEFINITION] [];
  DefObject "Query" "Root Query type" [] [(mkSdlField "node" "[Object Identification](https://facebook.github.io/relay/docs/en/graphql-server-specification.html#object-identification)" [(mkSdlInput "id" "" (TNonNull (TNamed "ID")) None)] (TNamed "Node") []); (mkSdlField "appointments" "Appointments [Connection](https://facebook.github.io/relay/docs/en/graphql-server-specification.html#connections)" [(mkSdlInput "first" "" (TNamed "Int") None); (mkSdlInput "after" "" (TNamed "ItemCursor") None); (mkSdlInput "last" "" (TNamed "Int") None); (mkSdlInput "before" "" (TNamed "ItemCursor") None)] (TNonNull (TNamed "AppointmentConnection")) []); (mkSdlField "tasks" "Tasks [Connection](https://facebook.github.io/relay/docs/en/graphql-server-specification.html#connections)" [(mkSdlInput "first" "" (TNamed "Int") None); (mkSdlInput "after" "" (TNamed "ItemCursor") None); (mkSdlInput "last" "" (TNamed "Int") None); (mkSdlInput "before" "" (TNamed "ItemCursor") None)] (TNonNull (TNamed "TaskConnection")) []); (mkSdlField "unreadCounts" "Folder unread counts [Connection](https://facebook.github.io/relay/docs/en/graphql-server-specification.html#connections)" [(mkSdlInput "first" "" (TNamed "Int") None); (mkSdlInput "after" "" (TNamed "ItemCursor") None); (mkSdlInput "last" "" (TNamed "Int") None); (mkSdlInput "before" "" (TNamed "ItemCursor") None)] (TNonNull (TNamed "FolderConnection")) []); (mkSdlField "appointmentsById" "" [(mkSdlInput "ids" "" (TNonNull (TListOf (TNonNull (TNamed "ID")))) (Some ((LList SL [(LString SL "ZmFrZUFwcG9pbnRtZW50SWQ=")]), "[""ZmFrZUFwcG9pbnRtZW50SWQ=""]")))] (TNonNull (TListOf (TNamed "Appointment"))) []); (mkSdlField "tasksById" "" [(mkSdlInput "ids" "" (TNonNull (TListOf (TNonNull (TNamed "ID")))) None)] (TNonNull (TListOf (TNamed "Task"))) []); (mkSdlField "unreadCountsById" "" [(mkSdlInput "ids" "" (TNonNull (TListOf (TNonNull (TNamed "ID")))) None)] (TNonNull (TListOf (TNamed "Folder"))) []); (mkSdlField "nested" "" [] (TNonNull (TNamed "NestedType")) []); (mkSdlField "unimplemented" "" [] (TNonNull (TNamed "String")) []); (mkSdlField "expensive" "" [] (TNonNull (TListOf (TNonNull (TNamed "Expensive")))) []); (mkSdlField "testTaskState" "" [] (TNonNull (TNamed "TaskState")) []); (mkSdlField "anyType" "" [(mkSdlInput "ids" "" (TNonNull (TListOf (TNonNull (TNamed "ID")))) None)] (TNonNull (TListOf (TNamed "UnionType"))) [])];
  DefInterface "Node" "Node interface for Relay support" [(mkSdlField "id" "" [] (TNonNull (TNamed "ID")) [])];
  DefObject "PageInfo" "" [] [(mkSdlField "hasNextPage" "" [] (TNonNull (TNamed "Boolean")) []); (mkSdlField "hasPreviousPage" "" [] (TNonNull (TNamed "Boolean")) [])];
  DefObject "AppointmentEdge" "" [] [(mkSdlField "node" "" [] (TNamed "Appointment") []); (mkSdlField "cursor" "" [] (TNonNull (TNamed "ItemCursor")) [])];
  DefObject "AppointmentConnection" "" [] [(mkSdlField "pageInfo" "" [] (TNonNull (TNamed "PageInfo")) []); (mkSdlField "edges" "" [] (TListOf (TNamed "AppointmentEdge")) [])];
  DefObject "TaskEdge" "" [] [(mkSdlField "node" "" [] (TNamed "Task") []); (mkSdlField "cursor" "" [] (TNonNull (TNamed "ItemCursor")) [])];
  DefObject "TaskConnection" "" [] [(mkSdlField "pageInfo" "" [] (TNonNull (TNamed "PageInfo")) []); (mkSdlField "edges" "" [] (TListOf (TNamed "TaskEdge")) [])];
  DefObject "FolderEdge" "" [] [(mkSdlField "node" "" [] (TNamed "Folder") []); (mkSdlField "cursor" "" [] (TNonNull (TNamed "ItemCursor")) [])];
  DefObject "FolderConnection" "" [] [(mkSdlField "pageInfo" "" [] (TNonNull (TNamed "PageInfo")) []); (mkSdlField "edges" "" [] (TListOf (TNamed "FolderEdge")) [])];
  DefInput "CompleteTaskInput" "" [(mkSdlInput "id" "" (TNonNull (TNamed "ID")) None); (mkSdlInput "testTaskState" "" (TNamed "TaskState") None); (mkSdlInput "isComplete" "" (TNamed "Boolean") (Some ((LBool SL true), "true"))); (mkSdlInput "clientMutationId" "" (TNamed "String") None)];
  DefObject "CompleteTaskPayload" "" [] [(mkSdlField "task" "" [] (TNamed "Task") []); (mkSdlField "clientMutationId" "" [] (TNamed "String") [])];
  DefObject "Mutation" "" [] [(mkSdlField "completeTask" "" [(mkSdlInput "input" "" (TNonNull (TNamed "CompleteTaskInput")) None)] (TNonNull (TNamed "CompleteTaskPayload")) []); (mkSdlField "setFloat" "" [(mkSdlInput "value" "" (TNonNull (TNamed "Float")) None)] (TNonNull (TNamed "Float")) [])];
  DefObject "Subscription" "" [] [(mkSdlField "nextAppointmentChange" "" [] (TNamed "Appointment") [(mkDir SL "deprecated" [(SL, ("reason", (LString SL "Need to deprecate a [field](http://spec.graphql.org/June2018/#sec-Deprecation)")))])]); (mkSdlField "nodeChange" "" [(mkSdlInput "id" "" (TNonNull (TNamed "ID")) None)] (TNonNull (TNamed "Node")) [])];
  DefDirective "subscriptionTag" "" [SchemaModel.SUBSCRIPTION] [(mkSdlInput "field" "" (TNamed "String") None)];
  DefScalar "DateTime" "";
  DefEnum "TaskState" "" [(mkSdlEnum "New" "" []); (mkSdlEnum "Started" "" []); (mkSdlEnum "Complete" "" []); (mkSdlEnum "Unassigned" "" [(mkDir SL "deprecated" [(SL, ("reason", (LString SL "Need to deprecate an [enum value](http://spec.graphql.org/June2018/#sec-Deprecation)")))])])];
  DefObject "Appointment" "" ["Node"] [(mkSdlField "id" "" [] (TNonNull (TNamed "ID")) []); (mkSdlField "when" "" [] (TNamed "DateTime") []); (mkSdlField "subject" "" [] (TNamed "String") []); (mkSdlField "isNow" "" [] (TNonNull (TNamed "Boolean")) []); (mkSdlField "forceError" "" [] (TNamed "String") [])];
  DefObject "Task" "" ["Node"] [(mkSdlField "id" "" [] (TNonNull (TNamed "ID")) []); (mkSdlField "title" "" [] (TNamed "String") []); (mkSdlField "isComplete" "" [] (TNonNull (TNamed "Boolean")) [])];
  DefObject "Folder" "" ["Node"] [(mkSdlField "id" "" [] (TNonNull (TNamed "ID")) []); (mkSdlField "name" "" [] (TNamed "String") []); (mkSdlField "unreadCount" "" [] (TNonNull (TNamed "Int")) [])];
  DefUnion "UnionType" "" ["Appointment"; "Task"; "Folder"];
  DefDirective "queryTag" "" [SchemaModel.QUERY] [(mkSdlInput "query" "" (TNonNull (TNamed "String")) None)];
  DefDirective "fieldTag" "" [SchemaModel.FIELD] [(mkSdlInput "field" "" (TNonNull (TNamed "String")) None)];
  DefDirective "fragmentDefinitionTag" "" [SchemaModel.FRAGMENT_DEFINITION] [(mkSdlInput "fragmentDefinition" "" (TNonNull (TNamed "String")) None)];
  DefDirective "fragmentSpreadTag" "" [SchemaModel.FRAGMENT_SPREAD] [(mkSdlInput "fragmentSpread" "" (TNonNull (TNamed "String")) None)];
  DefDirective "inlineFragmentTag" "" [SchemaModel.INLINE_FRAGMENT] [(mkSdlInput "inlineFragment" "" (TNonNull (TNamed "String")) None)];
  DefObject "NestedType" "Infinitely nestable type which can be used with nested fragments to test directive handling" [] [(mkSdlField "depth" "Depth of the nested element" [] (TNonNull (TNamed "Int")) []); (mkSdlField "nested" "Link to the next level" [] (TNonNull (TNamed "NestedType")) [])];
  DefObject "Expensive" "" [] [(mkSdlField "order" "" [] (TNonNull (TNamed "Int")) [])];
  DefInput "FirstNestedInput" "" [(mkSdlInput "id" "" (TNonNull (TNamed "ID")) None); (mkSdlInput "second" "" (TNonNull (TNamed "SecondNestedInput")) None); (mkSdlInput "third" "" (TNonNull (TNamed "ThirdNestedInput")) None)];
  DefInput "SecondNestedInput" "" [(mkSdlInput "id" "" (TNonNull (TNamed "ID")) None); (mkSdlInput "third" "" (TNonNull (TNamed "ThirdNestedInput")) None)];
  DefInput "ThirdNestedInput" "" [(mkSdlInput "id" "" (TNonNull (TNamed "ID")) None)];
  DefInput "FourthNestedInput" "" [(mkSdlInput "id" "" (TNonNull (TNamed "ID")) None)]].
(** samples/schema.validation.graphql *)
Definition validation_sdl : list sdl_def :=
 [DefObject "Query" "GraphQL validation [sample](http://spec.graphql.org/June2018/#example-26a9d)" [] [(mkSdlField "dog" "" [] (TNamed "Dog") [])];
  DefEnum "DogCommand" "" [(mkSdlEnum "SIT" "" []); (mkSdlEnum "DOWN" "" []); (mkSdlEnum "HEEL" "" [])];
  DefObject "Dog" "" ["Pet"] [(mkSdlField "name" "" [] (TNonNull (TNamed "String")) []); (mkSdlField "nickname" "" [] (TNamed "String") []); (mkSdlField "barkVolume" "" [] (TNamed "Int") []); (mkSdlField "doesKnowCommand" "" [(mkSdlInput "dogCommand" "" (TNonNull (TNamed "DogCommand")) None)] (TNonNull (TNamed "Boolean")) []); (mkSdlField "isHousetrained" "" [(mkSdlInput "atOtherHomes" "" (TNamed "Boolean") None)] (TNonNull (TNamed "Boolean")) []); (mkSdlField "owner" "" [] (TNamed "Human") [])];
  DefInterface "Sentient" "" [(mkSdlField "name" "" [] (TNonNull (TNamed "String")) [])];
  DefInterface "Pet" "" [(mkSdlField "name" "" [] (TNonNull (TNamed "String")) [])];
  DefObject "Alien" "" ["Sentient"] [(mkSdlField "name" "" [] (TNonNull (TNamed "String")) []); (mkSdlField "homePlanet" "" [] (TNamed "String") [])];
  DefObject "Human" "" ["Sentient"] [(mkSdlField "name" "" [] (TNonNull (TNamed "String")) [])];
  DefEnum "CatCommand" "" [(mkSdlEnum "JUMP" "" [])];
  DefObject "Cat" "" ["Pet"] [(mkSdlField "name" "" [] (TNonNull (TNamed "String")) []); (mkSdlField "nickname" "" [] (TNamed "String") []); (mkSdlField "doesKnowCommand" "" [(mkSdlInput "catCommand" "" (TNonNull (TNamed "CatCommand")) None)] (TNonNull (TNamed "Boolean")) []); (mkSdlField "meowVolume" "" [] (TNamed "Int") [])];
  DefUnion "CatOrDog" "" ["Cat"; "Dog"];
  DefUnion "DogOrHuman" "" ["Dog"; "Human"];
  DefUnion "HumanOrAlien" "" ["Human"; "Alien"];
  DefObject "Mutation" "Support for [Counter Example 94](http://spec.graphql.org/June2018/#example-77c2e)" [] [(mkSdlField "mutateDog" "" [] (TNamed "MutateDogResult") [])];
  DefObject "MutateDogResult" "Support for [Counter Example 94](http://spec.graphql.org/June2018/#example-77c2e)" [] [(mkSdlField "id" "" [] (TNonNull (TNamed "ID")) [])];
  DefObject "Subscription" "Support for [Example 97](http://spec.graphql.org/June2018/#example-5bbc3) - [Counter Example 101](http://spec.graphql.org/June2018/#example-2353b)" [] [(mkSdlField "newMessage" "Support for [Example 97](http://spec.graphql.org/June2018/#example-5bbc3) - [Counter Example 101](http://spec.graphql.org/June2018/#example-2353b)" [] (TNonNull (TNamed "Message")) []); (mkSdlField "disallowedSecondRootField" "Support for [Counter Example 99](http://spec.graphql.org/June2018/#example-3997d) - [Counter Example 100](http://spec.graphql.org/June2018/#example-18466)" [] (TNonNull (TNamed "Boolean")) [])];
  DefObject "Message" "Support for [Example 97](http://spec.graphql.org/June2018/#example-5bbc3) - [Counter Example 101](http://spec.graphql.org/June2018/#example-2353b)" [] [(mkSdlField "body" "" [] (TNamed "String") []); (mkSdlField "sender" "" [] (TNonNull (TNamed "ID")) [])];
  ExtObject "Query" [] [(mkSdlField "human" "Support for [Counter Example 116](http://spec.graphql.org/June2018/#example-77c2e)" [] (TNamed "Human") []); (mkSdlField "pet" "Support for [Counter Example 116](http://spec.graphql.org/June2018/#example-77c2e)" [] (TNamed "Pet") []); (mkSdlField "catOrDog" "Support for [Counter Example 116](http://spec.graphql.org/June2018/#example-77c2e)" [] (TNamed "CatOrDog") [])];
  DefObject "Arguments" "Support for [Example 120](http://spec.graphql.org/June2018/#example-1891c)" [] [(mkSdlField "multipleReqs" "Support for [Example 121](http://spec.graphql.org/June2018/#example-18fab)" [(mkSdlInput "x" "" (TNonNull (TNamed "Int")) None); (mkSdlInput "y" "" (TNonNull (TNamed "Int")) None)] (TNonNull (TNamed "Int")) []); (mkSdlField "booleanArgField" "" [(mkSdlInput "booleanArg" "" (TNamed "Boolean") None)] (TNamed "Boolean") []); (mkSdlField "floatArgField" "" [(mkSdlInput "floatArg" "" (TNamed "Float") None)] (TNamed "Float") []); (mkSdlField "intArgField" "" [(mkSdlInput "intArg" "" (TNamed "Int") None)] (TNamed "Int") []); (mkSdlField "nonNullBooleanArgField" "" [(mkSdlInput "nonNullBooleanArg" "" (TNonNull (TNamed "Boolean")) None)] (TNonNull (TNamed "Boolean")) []); (mkSdlField "nonNullBooleanListField" "" [(mkSdlInput "nonNullBooleanListArg" "" (TListOf (TNonNull (TNamed "Boolean"))) None)] (TListOf (TNonNull (TNamed "Boolean"))) []); (mkSdlField "booleanListArgField" "" [(mkSdlInput "booleanListArg" "" (TNonNull (TListOf (TNamed "Boolean"))) None)] (TListOf (TNamed "Boolean")) []); (mkSdlField "optionalNonNullBooleanArgField" "" [(mkSdlInput "optionalBooleanArg" "" (TNonNull (TNamed "Boolean")) (Some ((LBool SL false), "false")))] (TNonNull (TNamed "Boolean")) [])];
  ExtObject "Query" [] [(mkSdlField "arguments" "Support for [Example 120](http://spec.graphql.org/June2018/#example-1891c)" [] (TNamed "Arguments") [])];
  ExtObject "Human" [] [(mkSdlField "pets" "Support for [Counter Example 136](http://spec.graphql.org/June2018/#example-6bbad)" [] (TNonNull (TListOf (TNonNull (TNamed "Pet")))) [])];
  DefInput "ComplexInput" "[Example 155](http://spec.graphql.org/June2018/#example-f3185)" [(mkSdlInput "name" "" (TNamed "String") None); (mkSdlInput "owner" "" (TNamed "String") None)];
  ExtObject "Query" [] [(mkSdlField "findDog" "[Example 155](http://spec.graphql.org/June2018/#example-f3185)" [(mkSdlInput "complex" "" (TNamed "ComplexInput") None)] (TNamed "Dog") []); (mkSdlField "booleanList" "[Example 155](http://spec.graphql.org/June2018/#example-f3185)" [(mkSdlInput "booleanListArg" "" (TListOf (TNonNull (TNamed "Boolean"))) None)] (TNamed "Boolean") [])]].
(** src/IntrospectionSchema.cpp *)
Definition introspection_cpp : program := mkProgram [("TypeKind", [("SCALAR", "SCALAR"); ("OBJECT", "OBJECT"); ("INTERFACE", "INTERFACE"); ("UNION", "UNION"); ("ENUM", "ENUM"); ("INPUT_OBJECT", "INPUT_OBJECT"); ("LIST", "LIST"); ("NON_NULL", "NON_NULL")]); ("DirectiveLocation", [("QUERY", "QUERY"); ("MUTATION", "MUTATION"); ("SUBSCRIPTION", "SUBSCRIPTION"); ("FIELD", "FIELD"); ("FRAGMENT_DEFINITION", "FRAGMENT_DEFINITION"); ("FRAGMENT_SPREAD", "FRAGMENT_SPREAD"); ("INLINE_FRAGMENT", "INLINE_FRAGMENT"); ("SCHEMA", "SCHEMA"); ("SCALAR", "SCALAR"); ("OBJECT", "OBJECT"); ("FIELD_DEFINITION", "FIELD_DEFINITION"); ("ARGUMENT_DEFINITION", "ARGUMENT_DEFINITION"); ("INTERFACE", "INTERFACE"); ("UNION", "UNION"); ("ENUM", "ENUM"); ("ENUM_VALUE", "ENUM_VALUE"); ("INPUT_OBJECT", "INPUT_OBJECT"); ("INPUT_FIELD_DEFINITION", "INPUT_FIELD_DEFINITION")])]
 [SAddScalar "Boolean" "Boolean" "Built-in type";
  SAddScalar "Float" "Float" "Built-in type";
  SAddScalar "ID" "ID" "Built-in type";
  SAddScalar "Int" "Int" "Built-in type";
  SAddScalar "String" "String" "Built-in type";
  SMake ENUM "typeTypeKind" "__TypeKind" "";
  SAddType "__TypeKind" "typeTypeKind";
  SMake ENUM "typeDirectiveLocation" "__DirectiveLocation" "";
  SAddType "__DirectiveLocation" "typeDirectiveLocation";
  SMake OBJECT "typeSchema" "__Schema" "";
  SAddType "__Schema" "typeSchema";
  SMake OBJECT "typeType" "__Type" "";
  SAddType "__Type" "typeType";
  SMake OBJECT "typeField" "__Field" "";
  SAddType "__Field" "typeField";
  SMake OBJECT "typeInputValue" "__InputValue" "";
  SAddType "__InputValue" "typeInputValue";
  SMake OBJECT "typeEnumValue" "__EnumValue" "";
  SAddType "__EnumValue" "typeEnumValue";
  SMake OBJECT "typeDirective" "__Directive" "";
  SAddType "__Directive" "typeDirective";
  SEnumValues "typeTypeKind" [(mkEnumE "TypeKind" "SCALAR" "" None); (mkEnumE "TypeKind" "OBJECT" "" None); (mkEnumE "TypeKind" "INTERFACE" "" None); (mkEnumE "TypeKind" "UNION" "" None); (mkEnumE "TypeKind" "ENUM" "" None); (mkEnumE "TypeKind" "INPUT_OBJECT" "" None); (mkEnumE "TypeKind" "LIST" "" None); (mkEnumE "TypeKind" "NON_NULL" "" None)];
  SEnumValues "typeDirectiveLocation" [(mkEnumE "DirectiveLocation" "QUERY" "" None); (mkEnumE "DirectiveLocation" "MUTATION" "" None); (mkEnumE "DirectiveLocation" "SUBSCRIPTION" "" None); (mkEnumE "DirectiveLocation" "FIELD" "" None); (mkEnumE "DirectiveLocation" "FRAGMENT_DEFINITION" "" None); (mkEnumE "DirectiveLocation" "FRAGMENT_SPREAD" "" None); (mkEnumE "DirectiveLocation" "INLINE_FRAGMENT" "" None); (mkEnumE "DirectiveLocation" "SCHEMA" "" None); (mkEnumE "DirectiveLocation" "SCALAR" "" None); (mkEnumE "DirectiveLocation" "OBJECT" "" None); (mkEnumE "DirectiveLocation" "FIELD_DEFINITION" "" None); (mkEnumE "DirectiveLocation" "ARGUMENT_DEFINITION" "" None); (mkEnumE "DirectiveLocation" "INTERFACE" "" None); (mkEnumE "DirectiveLocation" "UNION" "" None); (mkEnumE "DirectiveLocation" "ENUM" "" None); (mkEnumE "DirectiveLocation" "ENUM_VALUE" "" None); (mkEnumE "DirectiveLocation" "INPUT_OBJECT" "" None); (mkEnumE "DirectiveLocation" "INPUT_FIELD_DEFINITION" "" None)];
  SFields "typeSchema" [(mkFieldE "types" "" None (EWrap NON_NULL (EWrap LIST (EWrap NON_NULL (ELookup "__Type")))) []); (mkFieldE "queryType" "" None (EWrap NON_NULL (ELookup "__Type")) []); (mkFieldE "mutationType" "" None (ELookup "__Type") []); (mkFieldE "subscriptionType" "" None (ELookup "__Type") []); (mkFieldE "directives" "" None (EWrap NON_NULL (EWrap LIST (EWrap NON_NULL (ELookup "__Directive")))) [])];
  SFields "typeType" [(mkFieldE "kind" "" None (EWrap NON_NULL (ELookup "__TypeKind")) []); (mkFieldE "name" "" None (ELookup "String") []); (mkFieldE "description" "" None (ELookup "String") []); (mkFieldE "fields" "" None (EWrap LIST (EWrap NON_NULL (ELookup "__Field"))) [(mkInputE "includeDeprecated" "" (ELookup "Boolean") "false")]); (mkFieldE "interfaces" "" None (EWrap LIST (EWrap NON_NULL (ELookup "__Type"))) []); (mkFieldE "possibleTypes" "" None (EWrap LIST (EWrap NON_NULL (ELookup "__Type"))) []); (mkFieldE "enumValues" "" None (EWrap LIST (EWrap NON_NULL (ELookup "__EnumValue"))) [(mkInputE "includeDeprecated" "" (ELookup "Boolean") "false")]); (mkFieldE "inputFields" "" None (EWrap LIST (EWrap NON_NULL (ELookup "__InputValue"))) []); (mkFieldE "ofType" "" None (ELookup "__Type") [])];
  SFields "typeField" [(mkFieldE "name" "" None (EWrap NON_NULL (ELookup "String")) []); (mkFieldE "description" "" None (ELookup "String") []); (mkFieldE "args" "" None (EWrap NON_NULL (EWrap LIST (EWrap NON_NULL (ELookup "__InputValue")))) []); (mkFieldE "type" "" None (EWrap NON_NULL (ELookup "__Type")) []); (mkFieldE "isDeprecated" "" None (EWrap NON_NULL (ELookup "Boolean")) []); (mkFieldE "deprecationReason" "" None (ELookup "String") [])];
  SFields "typeInputValue" [(mkFieldE "name" "" None (EWrap NON_NULL (ELookup "String")) []); (mkFieldE "description" "" None (ELookup "String") []); (mkFieldE "type" "" None (EWrap NON_NULL (ELookup "__Type")) []); (mkFieldE "defaultValue" "" None (ELookup "String") [])];
  SFields "typeEnumValue" [(mkFieldE "name" "" None (EWrap NON_NULL (ELookup "String")) []); (mkFieldE "description" "" None (ELookup "String") []); (mkFieldE "isDeprecated" "" None (EWrap NON_NULL (ELookup "Boolean")) []); (mkFieldE "deprecationReason" "" None (ELookup "String") [])];
  SFields "typeDirective" [(mkFieldE "name" "" None (EWrap NON_NULL (ELookup "String")) []); (mkFieldE "description" "" None (ELookup "String") []); (mkFieldE "locations" "" None (EWrap NON_NULL (EWrap LIST (EWrap NON_NULL (ELookup "__DirectiveLocation")))) []); (mkFieldE "args" "" None (EWrap NON_NULL (EWrap LIST (EWrap NON_NULL (ELookup "__InputValue")))) [])];
  SDirective "skip" "" [SchemaModel.FIELD; SchemaModel.FRAGMENT_SPREAD; SchemaModel.INLINE_FRAGMENT] [(mkInputE "if" "" (EWrap NON_NULL (ELookup "Boolean")) "")];
  SDirective "include" "" [SchemaModel.FIELD; SchemaModel.FRAGMENT_SPREAD; SchemaModel.INLINE_FRAGMENT] [(mkInputE "if" "" (EWrap NON_NULL (ELookup "Boolean")) "")];
  SDirective "deprecated" "" [SchemaModel.FIELD_DEFINITION; SchemaModel.ENUM_VALUE] [(mkInputE "reason" "" (ELookup "String") """No longer supported""")]].
(** samples/unified/TodaySchema.cpp *)
Definition unified_cpp : program := mkProgram [("TaskState", [("New", "New"); ("Started", "Started"); ("Complete", "Complete"); ("Unassigned", "Unassigned")])]
 [SAddScalar "ItemCursor" "ItemCursor" "";
  SAddScalar "DateTime" "DateTime" "";
  SMake ENUM "typeTaskState" "TaskState" "";
  SAddType "TaskState" "typeTaskState";
  SMake INPUT_OBJECT "typeCompleteTaskInput" "CompleteTaskInput" "";
  SAddType "CompleteTaskInput" "typeCompleteTaskInput";
  SMake INPUT_OBJECT "typeThirdNestedInput" "ThirdNestedInput" "";
  SAddType "ThirdNestedInput" "typeThirdNestedInput";
  SMake INPUT_OBJECT "typeFourthNestedInput" "FourthNestedInput" "";
  SAddType "FourthNestedInput" "typeFourthNestedInput";
  SMake INPUT_OBJECT "typeSecondNestedInput" "SecondNestedInput" "";
  SAddType "SecondNestedInput" "typeSecondNestedInput";
  SMake INPUT_OBJECT "typeFirstNestedInput" "FirstNestedInput" "";
  SAddType "FirstNestedInput" "typeFirstNestedInput";
  SMake UNION "typeUnionType" "UnionType" "";
  SAddType "UnionType" "typeUnionType";
  SMake INTERFACE "typeNode" "Node" "Node interface for Relay support";
  SAddType "Node" "typeNode";
  SMake OBJECT "typeQuery" "Query" "Root Query type";
  SAddType "Query" "typeQuery";
  SMake OBJECT "typePageInfo" "PageInfo" "";
  SAddType "PageInfo" "typePageInfo";
  SMake OBJECT "typeAppointmentEdge" "AppointmentEdge" "";
  SAddType "AppointmentEdge" "typeAppointmentEdge";
  SMake OBJECT "typeAppointmentConnection" "AppointmentConnection" "";
  SAddType "AppointmentConnection" "typeAppointmentConnection";
  SMake OBJECT "typeTaskEdge" "TaskEdge" "";
  SAddType "TaskEdge" "typeTaskEdge";
  SMake OBJECT "typeTaskConnection" "TaskConnection" "";
  SAddType "TaskConnection" "typeTaskConnection";
  SMake OBJECT "typeFolderEdge" "FolderEdge" "";
  SAddType "FolderEdge" "typeFolderEdge";
  SMake OBJECT "typeFolderConnection" "FolderConnection" "";
  SAddType "FolderConnection" "typeFolderConnection";
  SMake OBJECT "typeCompleteTaskPayload" "CompleteTaskPayload" "";
  SAddType "CompleteTaskPayload" "typeCompleteTaskPayload";
  SMake OBJECT "typeMutation" "Mutation" "";
  SAddType "Mutation" "typeMutation";
  SMake OBJECT "typeSubscription" "Subscription" "";
  SAddType "Subscription" "typeSubscription";
  SMake OBJECT "typeAppointment" "Appointment" "";
  SAddType "Appointment" "typeAppointment";
  SMake OBJECT "typeTask" "Task" "";
  SAddType "Task" "typeTask";
  SMake OBJECT "typeFolder" "Folder" "";
  SAddType "Folder" "typeFolder";
  SMake OBJECT "typeNestedType" "NestedType" "Infinitely nestable type which can be used with nested fragments to test directive handling";
  SAddType "NestedType" "typeNestedType";
  SMake OBJECT "typeExpensive" "Expensive" "";
  SAddType "Expensive" "typeExpensive";
  SEnumValues "typeTaskState" [(mkEnumE "TaskState" "New" "" None); (mkEnumE "TaskState" "Started" "" None); (mkEnumE "TaskState" "Complete" "" None); (mkEnumE "TaskState" "Unassigned" "" (Some "Need to deprecate an [enum value](http://spec.graphql.org/June2018/#sec-Deprecation)"))];
  SInputValues "typeCompleteTaskInput" [(mkInputE "id" "" (EWrap NON_NULL (ELookup "ID")) ""); (mkInputE "testTaskState" "" (ELookup "TaskState") ""); (mkInputE "isComplete" "" (ELookup "Boolean") "true"); (mkInputE "clientMutationId" "" (ELookup "String") "")];
  SInputValues "typeThirdNestedInput" [(mkInputE "id" "" (EWrap NON_NULL (ELookup "ID")) "")];
  SInputValues "typeFourthNestedInput" [(mkInputE "id" "" (EWrap NON_NULL (ELookup "ID")) "")];
  SInputValues "typeSecondNestedInput" [(mkInputE "id" "" (EWrap NON_NULL (ELookup "ID")) ""); (mkInputE "third" "" (EWrap NON_NULL (ELookup "ThirdNestedInput")) "")];
  SInputValues "typeFirstNestedInput" [(mkInputE "id" "" (EWrap NON_NULL (ELookup "ID")) ""); (mkInputE "second" "" (EWrap NON_NULL (ELookup "SecondNestedInput")) ""); (mkInputE "third" "" (EWrap NON_NULL (ELookup "ThirdNestedInput")) "")];
  SPossibleTypes "typeUnionType" [(ELookup "Appointment"); (ELookup "Task"); (ELookup "Folder")];
  SFields "typeNode" [(mkFieldE "id" "" None (EWrap NON_NULL (ELookup "ID")) [])];
  SFields "typeQuery" [(mkFieldE "node" "[Object Identification](https://facebook.github.io/relay/docs/en/graphql-server-specification.html#object-identification)" None (ELookup "Node") [(mkInputE "id" "" (EWrap NON_NULL (ELookup "ID")) "")]); (mkFieldE "appointments" "Appointments [Connection](https://facebook.github.io/relay/docs/en/graphql-server-specification.html#connections)" None (EWrap NON_NULL (ELookup "AppointmentConnection")) [(mkInputE "first" "" (ELookup "Int") ""); (mkInputE "after" "" (ELookup "ItemCursor") ""); (mkInputE "last" "" (ELookup "Int") ""); (mkInputE "before" "" (ELookup "ItemCursor") "")]); (mkFieldE "tasks" "Tasks [Connection](https://facebook.github.io/relay/docs/en/graphql-server-specification.html#connections)" None (EWrap NON_NULL (ELookup "TaskConnection")) [(mkInputE "first" "" (ELookup "Int") ""); (mkInputE "after" "" (ELookup "ItemCursor") ""); (mkInputE "last" "" (ELookup "Int") ""); (mkInputE "before" "" (ELookup "ItemCursor") "")]); (mkFieldE "unreadCounts" "Folder unread counts [Connection](https://facebook.github.io/relay/docs/en/graphql-server-specification.html#connections)" None (EWrap NON_NULL (ELookup "FolderConnection")) [(mkInputE "first" "" (ELookup "Int") ""); (mkInputE "after" "" (ELookup "ItemCursor") ""); (mkInputE "last" "" (ELookup "Int") ""); (mkInputE "before" "" (ELookup "ItemCursor") "")]); (mkFieldE "appointmentsById" "" None (EWrap NON_NULL (EWrap LIST (ELookup "Appointment"))) [(mkInputE "ids" "" (EWrap NON_NULL (EWrap LIST (EWrap NON_NULL (ELookup "ID")))) "[""ZmFrZUFwcG9pbnRtZW50SWQ=""]")]); (mkFieldE "tasksById" "" None (EWrap NON_NULL (EWrap LIST (ELookup "Task"))) [(mkInputE "ids" "" (EWrap NON_NULL (EWrap LIST (EWrap NON_NULL (ELookup "ID")))) "")]); (mkFieldE "unreadCountsById" "" None (EWrap NON_NULL (EWrap LIST (ELookup "Folder"))) [(mkInputE "ids" "" (EWrap NON_NULL (EWrap LIST (EWrap NON_NULL (ELookup "ID")))) "")]); (mkFieldE "nested" "" None (EWrap NON_NULL (ELookup "NestedType")) []); (mkFieldE "unimplemented" "" None (EWrap NON_NULL (ELookup "String")) []); (mkFieldE "expensive" "" None (EWrap NON_NULL (EWrap LIST (EWrap NON_NULL (ELookup "Expensive")))) []); (mkFieldE "testTaskState" "" None (EWrap NON_NULL (ELookup "TaskState")) []); (mkFieldE "anyType" "" None (EWrap NON_NULL (EWrap LIST (ELookup "UnionType"))) [(mkInputE "ids" "" (EWrap NON_NULL (EWrap LIST (EWrap NON_NULL (ELookup "ID")))) "")])];
  SFields "typePageInfo" [(mkFieldE "hasNextPage" "" None (EWrap NON_NULL (ELookup "Boolean")) []); (mkFieldE "hasPreviousPage" "" None (EWrap NON_NULL (ELookup "Boolean")) [])];
  SFields "typeAppointmentEdge" [(mkFieldE "node" "" None (ELookup "Appointment") []); (mkFieldE "cursor" "" None (EWrap NON_NULL (ELookup "ItemCursor")) [])];
  SFields "typeAppointmentConnection" [(mkFieldE "pageInfo" "" None (EWrap NON_NULL (ELookup "PageInfo")) []); (mkFieldE "edges" "" None (EWrap LIST (ELookup "AppointmentEdge")) [])];
  SFields "typeTaskEdge" [(mkFieldE "node" "" None (ELookup "Task") []); (mkFieldE "cursor" "" None (EWrap NON_NULL (ELookup "ItemCursor")) [])];
  SFields "typeTaskConnection" [(mkFieldE "pageInfo" "" None (EWrap NON_NULL (ELookup "PageInfo")) []); (mkFieldE "edges" "" None (EWrap LIST (ELookup "TaskEdge")) [])];
  SFields "typeFolderEdge" [(mkFieldE "node" "" None (ELookup "Folder") []); (mkFieldE "cursor" "" None (EWrap NON_NULL (ELookup "ItemCursor")) [])];
  SFields "typeFolderConnection" [(mkFieldE "pageInfo" "" None (EWrap NON_NULL (ELookup "PageInfo")) []); (mkFieldE "edges" "" None (EWrap LIST (ELookup "FolderEdge")) [])];
  SFields "typeCompleteTaskPayload" [(mkFieldE "task" "" None (ELookup "Task") []); (mkFieldE "clientMutationId" "" None (ELookup "String") [])];
  SFields "typeMutation" [(mkFieldE "completeTask" "" None (EWrap NON_NULL (ELookup "CompleteTaskPayload")) [(mkInputE "input" "" (EWrap NON_NULL (ELookup "CompleteTaskInput")) "")]); (mkFieldE "setFloat" "" None (EWrap NON_NULL (ELookup "Float")) [(mkInputE "value" "" (EWrap NON_NULL (ELookup "Float")) "")])];
  SFields "typeSubscription" [(mkFieldE "nextAppointmentChange" "" (Some "Need to deprecate a [field](http://spec.graphql.org/June2018/#sec-Deprecation)") (ELookup "Appointment") []); (mkFieldE "nodeChange" "" None (EWrap NON_NULL (ELookup "Node")) [(mkInputE "id" "" (EWrap NON_NULL (ELookup "ID")) "")])];
  SInterfaces "typeAppointment" [(EVar "typeNode")];
  SFields "typeAppointment" [(mkFieldE "id" "" None (EWrap NON_NULL (ELookup "ID")) []); (mkFieldE "when" "" None (ELookup "DateTime") []); (mkFieldE "subject" "" None (ELookup "String") []); (mkFieldE "isNow" "" None (EWrap NON_NULL (ELookup "Boolean")) []); (mkFieldE "forceError" "" None (ELookup "String") [])];
  SInterfaces "typeTask" [(EVar "typeNode")];
  SFields "typeTask" [(mkFieldE "id" "" None (EWrap NON_NULL (ELookup "ID")) []); (mkFieldE "title" "" None (ELookup "String") []); (mkFieldE "isComplete" "" None (EWrap NON_NULL (ELookup "Boolean")) [])];
  SInterfaces "typeFolder" [(EVar "typeNode")];
  SFields "typeFolder" [(mkFieldE "id" "" None (EWrap NON_NULL (ELookup "ID")) []); (mkFieldE "name" "" None (ELookup "String") []); (mkFieldE "unreadCount" "" None (EWrap NON_NULL (ELookup "Int")) [])];
  SFields "typeNestedType" [(mkFieldE "depth" "Depth of the nested element" None (EWrap NON_NULL (ELookup "Int")) []); (mkFieldE "nested" "Link to the next level" None (EWrap NON_NULL (ELookup "NestedType")) [])];
  SFields "typeExpensive" [(mkFieldE "order" "" None (EWrap NON_NULL (ELookup "Int")) [])];
  SDirective "id" "" [SchemaModel.FIELD_DEFINITION] [];
  SDirective "subscriptionTag" "" [SchemaModel.SUBSCRIPTION] [(mkInputE "field" "" (ELookup "String") "")];
  SDirective "queryTag" "" [SchemaModel.QUERY] [(mkInputE "query" "" (EWrap NON_NULL (ELookup "String")) "")];
  SDirective "fieldTag" "" [SchemaModel.FIELD] [(mkInputE "field" "" (EWrap NON_NULL (ELookup "String")) "")];
  SDirective "fragmentDefinitionTag" "" [SchemaModel.FRAGMENT_DEFINITION] [(mkInputE "fragmentDefinition" "" (EWrap NON_NULL (ELookup "String")) "")];
  SDirective "fragmentSpreadTag" "" [SchemaModel.FRAGMENT_SPREAD] [(mkInputE "fragmentSpread" "" (EWrap NON_NULL (ELookup "String")) "")];
  SDirective "inlineFragmentTag" "" [SchemaModel.INLINE_FRAGMENT] [(mkInputE "inlineFragment" "" (EWrap NON_NULL (ELookup "String")) "")];
  SOperation OpQuery "typeQuery";
  SOperation OpMutation "typeMutation";
  SOperation OpSubscription "typeSubscription"].
(** samples/separate/TodaySchema.cpp *)
Definition separate_cpp : program := mkProgram [("TaskState", [("New", "New"); ("Started", "Started"); ("Complete", "Complete"); ("Unassigned", "Unassigned")])]
 [SAddScalar "ItemCursor" "ItemCursor" "";
  SAddScalar "DateTime" "DateTime" "";
  SMake ENUM "typeTaskState" "TaskState" "";
  SAddType "TaskState" "typeTaskState";
  SMake INPUT_OBJECT "typeCompleteTaskInput" "CompleteTaskInput" "";
  SAddType "CompleteTaskInput" "typeCompleteTaskInput";
  SMake INPUT_OBJECT "typeThirdNestedInput" "ThirdNestedInput" "";
  SAddType "ThirdNestedInput" "typeThirdNestedInput";
  SMake INPUT_OBJECT "typeFourthNestedInput" "FourthNestedInput" "";
  SAddType "FourthNestedInput" "typeFourthNestedInput";
  SMake INPUT_OBJECT "typeSecondNestedInput" "SecondNestedInput" "";
  SAddType "SecondNestedInput" "typeSecondNestedInput";
  SMake INPUT_OBJECT "typeFirstNestedInput" "FirstNestedInput" "";
  SAddType "FirstNestedInput" "typeFirstNestedInput";
  SMake UNION "typeUnionType" "UnionType" "";
  SAddType "UnionType" "typeUnionType";
  SMake INTERFACE "typeNode" "Node" "Node interface for Relay support";
  SAddType "Node" "typeNode";
  SMake OBJECT "typeQuery" "Query" "Root Query type";
  SAddType "Query" "typeQuery";
  SMake OBJECT "typePageInfo" "PageInfo" "";
  SAddType "PageInfo" "typePageInfo";
  SMake OBJECT "typeAppointmentEdge" "AppointmentEdge" "";
  SAddType "AppointmentEdge" "typeAppointmentEdge";
  SMake OBJECT "typeAppointmentConnection" "AppointmentConnection" "";
  SAddType "AppointmentConnection" "typeAppointmentConnection";
  SMake OBJECT "typeTaskEdge" "TaskEdge" "";
  SAddType "TaskEdge" "typeTaskEdge";
  SMake OBJECT "typeTaskConnection" "TaskConnection" "";
  SAddType "TaskConnection" "typeTaskConnection";
  SMake OBJECT "typeFolderEdge" "FolderEdge" "";
  SAddType "FolderEdge" "typeFolderEdge";
  SMake OBJECT "typeFolderConnection" "FolderConnection" "";
  SAddType "FolderConnection" "typeFolderConnection";
  SMake OBJECT "typeCompleteTaskPayload" "CompleteTaskPayload" "";
  SAddType "CompleteTaskPayload" "typeCompleteTaskPayload";
  SMake OBJECT "typeMutation" "Mutation" "";
  SAddType "Mutation" "typeMutation";
  SMake OBJECT "typeSubscription" "Subscription" "";
  SAddType "Subscription" "typeSubscription";
  SMake OBJECT "typeAppointment" "Appointment" "";
  SAddType "Appointment" "typeAppointment";
  SMake OBJECT "typeTask" "Task" "";
  SAddType "Task" "typeTask";
  SMake OBJECT "typeFolder" "Folder" "";
  SAddType "Folder" "typeFolder";
  SMake OBJECT "typeNestedType" "NestedType" "Infinitely nestable type which can be used with nested fragments to test directive handling";
  SAddType "NestedType" "typeNestedType";
  SMake OBJECT "typeExpensive" "Expensive" "";
  SAddType "Expensive" "typeExpensive";
  SEnumValues "typeTaskState" [(mkEnumE "TaskState" "New" "" None); (mkEnumE "TaskState" "Started" "" None); (mkEnumE "TaskState" "Complete" "" None); (mkEnumE "TaskState" "Unassigned" "" (Some "Need to deprecate an [enum value](http://spec.graphql.org/June2018/#sec-Deprecation)"))];
  SInputValues "typeCompleteTaskInput" [(mkInputE "id" "" (EWrap NON_NULL (ELookup "ID")) ""); (mkInputE "testTaskState" "" (ELookup "TaskState") ""); (mkInputE "isComplete" "" (ELookup "Boolean") "true"); (mkInputE "clientMutationId" "" (ELookup "String") "")];
  SInputValues "typeThirdNestedInput" [(mkInputE "id" "" (EWrap NON_NULL (ELookup "ID")) "")];
  SInputValues "typeFourthNestedInput" [(mkInputE "id" "" (EWrap NON_NULL (ELookup "ID")) "")];
  SInputValues "typeSecondNestedInput" [(mkInputE "id" "" (EWrap NON_NULL (ELookup "ID")) ""); (mkInputE "third" "" (EWrap NON_NULL (ELookup "ThirdNestedInput")) "")];
  SInputValues "typeFirstNestedInput" [(mkInputE "id" "" (EWrap NON_NULL (ELookup "ID")) ""); (mkInputE "second" "" (EWrap NON_NULL (ELookup "SecondNestedInput")) ""); (mkInputE "third" "" (EWrap NON_NULL (ELookup "ThirdNestedInput")) "")];
  SPossibleTypes "typeUnionType" [(ELookup "Appointment"); (ELookup "Task"); (ELookup "Folder")];
  SFields "typeNode" [(mkFieldE "id" "" None (EWrap NON_NULL (ELookup "ID")) [])];
  SFields "typeQuery" [(mkFieldE "node" "[Object Identification](https://facebook.github.io/relay/docs/en/graphql-server-specification.html#object-identification)" None (ELookup "Node") [(mkInputE "id" "" (EWrap NON_NULL (ELookup "ID")) "")]); (mkFieldE "appointments" "Appointments [Connection](https://facebook.github.io/relay/docs/en/graphql-server-specification.html#connections)" None (EWrap NON_NULL (ELookup "AppointmentConnection")) [(mkInputE "first" "" (ELookup "Int") ""); (mkInputE "after" "" (ELookup "ItemCursor") ""); (mkInputE "last" "" (ELookup "Int") ""); (mkInputE "before" "" (ELookup "ItemCursor") "")]); (mkFieldE "tasks" "Tasks [Connection](https://facebook.github.io/relay/docs/en/graphql-server-specification.html#connections)" None (EWrap NON_NULL (ELookup "TaskConnection")) [(mkInputE "first" "" (ELookup "Int") ""); (mkInputE "after" "" (ELookup "ItemCursor") ""); (mkInputE "last" "" (ELookup "Int") ""); (mkInputE "before" "" (ELookup "ItemCursor") "")]); (mkFieldE "unreadCounts" "Folder unread counts [Connection](https://facebook.github.io/relay/docs/en/graphql-server-specification.html#connections)" None (EWrap NON_NULL (ELookup "FolderConnection")) [(mkInputE "first" "" (ELookup "Int") ""); (mkInputE "after" "" (ELookup "ItemCursor") ""); (mkInputE "last" "" (ELookup "Int") ""); (mkInputE "before" "" (ELookup "ItemCursor") "")]); (mkFieldE "appointmentsById" "" None (EWrap NON_NULL (EWrap LIST (ELookup "Appointment"))) [(mkInputE "ids" "" (EWrap NON_NULL (EWrap LIST (EWrap NON_NULL (ELookup "ID")))) "[""ZmFrZUFwcG9pbnRtZW50SWQ=""]")]); (mkFieldE "tasksById" "" None (EWrap NON_NULL (EWrap LIST (ELookup "Task"))) [(mkInputE "ids" "" (EWrap NON_NULL (EWrap LIST (EWrap NON_NULL (ELookup "ID")))) "")]); (mkFieldE "unreadCountsById" "" None (EWrap NON_NULL (EWrap LIST (ELookup "Folder"))) [(mkInputE "ids" "" (EWrap NON_NULL (EWrap LIST (EWrap NON_NULL (ELookup "ID")))) "")]); (mkFieldE "nested" "" None (EWrap NON_NULL (ELookup "NestedType")) []); (mkFieldE "unimplemented" "" None (EWrap NON_NULL (ELookup "String")) []); (mkFieldE "expensive" "" None (EWrap NON_NULL (EWrap LIST (EWrap NON_NULL (ELookup "Expensive")))) []); (mkFieldE "testTaskState" "" None (EWrap NON_NULL (ELookup "TaskState")) []); (mkFieldE "anyType" "" None (EWrap NON_NULL (EWrap LIST (ELookup "UnionType"))) [(mkInputE "ids" "" (EWrap NON_NULL (EWrap LIST (EWrap NON_NULL (ELookup "ID")))) "")])];
  SFields "typePageInfo" [(mkFieldE "hasNextPage" "" None (EWrap NON_NULL (ELookup "Boolean")) []); (mkFieldE "hasPreviousPage" "" None (EWrap NON_NULL (ELookup "Boolean")) [])];
  SFields "typeAppointmentEdge" [(mkFieldE "node" "" None (ELookup "Appointment") []); (mkFieldE "cursor" "" None (EWrap NON_NULL (ELookup "ItemCursor")) [])];
  SFields "typeAppointmentConnection" [(mkFieldE "pageInfo" "" None (EWrap NON_NULL (ELookup "PageInfo")) []); (mkFieldE "edges" "" None (EWrap LIST (ELookup "AppointmentEdge")) [])];
  SFields "typeTaskEdge" [(mkFieldE "node" "" None (ELookup "Task") []); (mkFieldE "cursor" "" None (EWrap NON_NULL (ELookup "ItemCursor")) [])];
  SFields "typeTaskConnection" [(mkFieldE "pageInfo" "" None (EWrap NON_NULL (ELookup "PageInfo")) []); (mkFieldE "edges" "" None (EWrap LIST (ELookup "TaskEdge")) [])];
  SFields "typeFolderEdge" [(mkFieldE "node" "" None (ELookup "Folder") []); (mkFieldE "cursor" "" None (EWrap NON_NULL (ELookup "ItemCursor")) [])];
  SFields "typeFolderConnection" [(mkFieldE "pageInfo" "" None (EWrap NON_NULL (ELookup "PageInfo")) []); (mkFieldE "edges" "" None (EWrap LIST (ELookup "FolderEdge")) [])];
  SFields "typeCompleteTaskPayload" [(mkFieldE "task" "" None (ELookup "Task") []); (mkFieldE "clientMutationId" "" None (ELookup "String") [])];
  SFields "typeMutation" [(mkFieldE "completeTask" "" None (EWrap NON_NULL (ELookup "CompleteTaskPayload")) [(mkInputE "input" "" (EWrap NON_NULL (ELookup "CompleteTaskInput")) "")]); (mkFieldE "setFloat" "" None (EWrap NON_NULL (ELookup "Float")) [(mkInputE "value" "" (EWrap NON_NULL (ELookup "Float")) "")])];
  SFields "typeSubscription" [(mkFieldE "nextAppointmentChange" "" (Some "Need to deprecate a [field](http://spec.graphql.org/June2018/#sec-Deprecation)") (ELookup "Appointment") []); (mkFieldE "nodeChange" "" None (EWrap NON_NULL (ELookup "Node")) [(mkInputE "id" "" (EWrap NON_NULL (ELookup "ID")) "")])];
  SInterfaces "typeAppointment" [(ELookup "Node")];
  SFields "typeAppointment" [(mkFieldE "id" "" None (EWrap NON_NULL (ELookup "ID")) []); (mkFieldE "when" "" None (ELookup "DateTime") []); (mkFieldE "subject" "" None (ELookup "String") []); (mkFieldE "isNow" "" None (EWrap NON_NULL (ELookup "Boolean")) []); (mkFieldE "forceError" "" None (ELookup "String") [])];
  SInterfaces "typeTask" [(ELookup "Node")];
  SFields "typeTask" [(mkFieldE "id" "" None (EWrap NON_NULL (ELookup "ID")) []); (mkFieldE "title" "" None (ELookup "String") []); (mkFieldE "isComplete" "" None (EWrap NON_NULL (ELookup "Boolean")) [])];
  SInterfaces "typeFolder" [(ELookup "Node")];
  SFields "typeFolder" [(mkFieldE "id" "" None (EWrap NON_NULL (ELookup "ID")) []); (mkFieldE "name" "" None (ELookup "String") []); (mkFieldE "unreadCount" "" None (EWrap NON_NULL (ELookup "Int")) [])];
  SFields "typeNestedType" [(mkFieldE "depth" "Depth of the nested element" None (EWrap NON_NULL (ELookup "Int")) []); (mkFieldE "nested" "Link to the next level" None (EWrap NON_NULL (ELookup "NestedType")) [])];
  SFields "typeExpensive" [(mkFieldE "order" "" None (EWrap NON_NULL (ELookup "Int")) [])];
  SDirective "id" "" [SchemaModel.FIELD_DEFINITION] [];
  SDirective "subscriptionTag" "" [SchemaModel.SUBSCRIPTION] [(mkInputE "field" "" (ELookup "String") "")];
  SDirective "queryTag" "" [SchemaModel.QUERY] [(mkInputE "query" "" (EWrap NON_NULL (ELookup "String")) "")];
  SDirective "fieldTag" "" [SchemaModel.FIELD] [(mkInputE "field" "" (EWrap NON_NULL (ELookup "String")) "")];
  SDirective "fragmentDefinitionTag" "" [SchemaModel.FRAGMENT_DEFINITION] [(mkInputE "fragmentDefinition" "" (EWrap NON_NULL (ELookup "String")) "")];
  SDirective "fragmentSpreadTag" "" [SchemaModel.FRAGMENT_SPREAD] [(mkInputE "fragmentSpread" "" (EWrap NON_NULL (ELookup "String")) "")];
  SDirective "inlineFragmentTag" "" [SchemaModel.INLINE_FRAGMENT] [(mkInputE "inlineFragment" "" (EWrap NON_NULL (ELookup "String")) "")];
  SOperation OpQuery "typeQuery";
  SOperation OpMutation "typeMutation";
  SOperation OpSubscription "typeSubscription"].
(** samples/unified_nointrospection/TodaySchema.cpp *)
Definition unified_nointrospection_cpp : program := mkProgram [("TaskState", [("New", "New"); ("Started", "Started"); ("Complete", "Complete"); ("Unassigned", "Unassigned")])]
 [SAddScalar "ItemCursor" "ItemCursor" "";
  SAddScalar "DateTime" "DateTime" "";
  SMake ENUM "typeTaskState" "TaskState" "";
  SAddType "TaskState" "typeTaskState";
  SMake INPUT_OBJECT "typeCompleteTaskInput" "CompleteTaskInput" "";
  SAddType "CompleteTaskInput" "typeCompleteTaskInput";
  SMake INPUT_OBJECT "typeThirdNestedInput" "ThirdNestedInput" "";
  SAddType "ThirdNestedInput" "typeThirdNestedInput";
  SMake INPUT_OBJECT "typeFourthNestedInput" "FourthNestedInput" "";
  SAddType "FourthNestedInput" "typeFourthNestedInput";
  SMake INPUT_OBJECT "typeSecondNestedInput" "SecondNestedInput" "";
  SAddType "SecondNestedInput" "typeSecondNestedInput";
  SMake INPUT_OBJECT "typeFirstNestedInput" "FirstNestedInput" "";
  SAddType "FirstNestedInput" "typeFirstNestedInput";
  SMake UNION "typeUnionType" "UnionType" "";
  SAddType "UnionType" "typeUnionType";
  SMake INTERFACE "typeNode" "Node" "";
  SAddType "Node" "typeNode";
  SMake OBJECT "typeQuery" "Query" "";
  SAddType "Query" "typeQuery";
  SMake OBJECT "typePageInfo" "PageInfo" "";
  SAddType "PageInfo" "typePageInfo";
  SMake OBJECT "typeAppointmentEdge" "AppointmentEdge" "";
  SAddType "AppointmentEdge" "typeAppointmentEdge";
  SMake OBJECT "typeAppointmentConnection" "AppointmentConnection" "";
  SAddType "AppointmentConnection" "typeAppointmentConnection";
  SMake OBJECT "typeTaskEdge" "TaskEdge" "";
  SAddType "TaskEdge" "typeTaskEdge";
  SMake OBJECT "typeTaskConnection" "TaskConnection" "";
  SAddType "TaskConnection" "typeTaskConnection";
  SMake OBJECT "typeFolderEdge" "FolderEdge" "";
  SAddType "FolderEdge" "typeFolderEdge";
  SMake OBJECT "typeFolderConnection" "FolderConnection" "";
  SAddType "FolderConnection" "typeFolderConnection";
  SMake OBJECT "typeCompleteTaskPayload" "CompleteTaskPayload" "";
  SAddType "CompleteTaskPayload" "typeCompleteTaskPayload";
  SMake OBJECT "typeMutation" "Mutation" "";
  SAddType "Mutation" "typeMutation";
  SMake OBJECT "typeSubscription" "Subscription" "";
  SAddType "Subscription" "typeSubscription";
  SMake OBJECT "typeAppointment" "Appointment" "";
  SAddType "Appointment" "typeAppointment";
  SMake OBJECT "typeTask" "Task" "";
  SAddType "Task" "typeTask";
  SMake OBJECT "typeFolder" "Folder" "";
  SAddType "Folder" "typeFolder";
  SMake OBJECT "typeNestedType" "NestedType" "";
  SAddType "NestedType" "typeNestedType";
  SMake OBJECT "typeExpensive" "Expensive" "";
  SAddType "Expensive" "typeExpensive";
  SEnumValues "typeTaskState" [(mkEnumE "TaskState" "New" "" None); (mkEnumE "TaskState" "Started" "" None); (mkEnumE "TaskState" "Complete" "" None); (mkEnumE "TaskState" "Unassigned" "" (Some "Need to deprecate an [enum value](http://spec.graphql.org/June2018/#sec-Deprecation)"))];
  SInputValues "typeCompleteTaskInput" [(mkInputE "id" "" (EWrap NON_NULL (ELookup "ID")) ""); (mkInputE "testTaskState" "" (ELookup "TaskState") ""); (mkInputE "isComplete" "" (ELookup "Boolean") "true"); (mkInputE "clientMutationId" "" (ELookup "String") "")];
  SInputValues "typeThirdNestedInput" [(mkInputE "id" "" (EWrap NON_NULL (ELookup "ID")) "")];
  SInputValues "typeFourthNestedInput" [(mkInputE "id" "" (EWrap NON_NULL (ELookup "ID")) "")];
  SInputValues "typeSecondNestedInput" [(mkInputE "id" "" (EWrap NON_NULL (ELookup "ID")) ""); (mkInputE "third" "" (EWrap NON_NULL (ELookup "ThirdNestedInput")) "")];
  SInputValues "typeFirstNestedInput" [(mkInputE "id" "" (EWrap NON_NULL (ELookup "ID")) ""); (mkInputE "second" "" (EWrap NON_NULL (ELookup "SecondNestedInput")) ""); (mkInputE "third" "" (EWrap NON_NULL (ELookup "ThirdNestedInput")) "")];
  SPossibleTypes "typeUnionType" [(ELookup "Appointment"); (ELookup "Task"); (ELookup "Folder")];
  SFields "typeNode" [(mkFieldE "id" "" None (EWrap NON_NULL (ELookup "ID")) [])];
  SFields "typeQuery" [(mkFieldE "node" "" None (ELookup "Node") [(mkInputE "id" "" (EWrap NON_NULL (ELookup "ID")) "")]); (mkFieldE "appointments" "" None (EWrap NON_NULL (ELookup "AppointmentConnection")) [(mkInputE "first" "" (ELookup "Int") ""); (mkInputE "after" "" (ELookup "ItemCursor") ""); (mkInputE "last" "" (ELookup "Int") ""); (mkInputE "before" "" (ELookup "ItemCursor") "")]); (mkFieldE "tasks" "" None (EWrap NON_NULL (ELookup "TaskConnection")) [(mkInputE "first" "" (ELookup "Int") ""); (mkInputE "after" "" (ELookup "ItemCursor") ""); (mkInputE "last" "" (ELookup "Int") ""); (mkInputE "before" "" (ELookup "ItemCursor") "")]); (mkFieldE "unreadCounts" "" None (EWrap NON_NULL (ELookup "FolderConnection")) [(mkInputE "first" "" (ELookup "Int") ""); (mkInputE "after" "" (ELookup "ItemCursor") ""); (mkInputE "last" "" (ELookup "Int") ""); (mkInputE "before" "" (ELookup "ItemCursor") "")]); (mkFieldE "appointmentsById" "" None (EWrap NON_NULL (EWrap LIST (ELookup "Appointment"))) [(mkInputE "ids" "" (EWrap NON_NULL (EWrap LIST (EWrap NON_NULL (ELookup "ID")))) "[""ZmFrZUFwcG9pbnRtZW50SWQ=""]")]); (mkFieldE "tasksById" "" None (EWrap NON_NULL (EWrap LIST (ELookup "Task"))) [(mkInputE "ids" "" (EWrap NON_NULL (EWrap LIST (EWrap NON_NULL (ELookup "ID")))) "")]); (mkFieldE "unreadCountsById" "" None (EWrap NON_NULL (EWrap LIST (ELookup "Folder"))) [(mkInputE "ids" "" (EWrap NON_NULL (EWrap LIST (EWrap NON_NULL (ELookup "ID")))) "")]); (mkFieldE "nested" "" None (EWrap NON_NULL (ELookup "NestedType")) []); (mkFieldE "unimplemented" "" None (EWrap NON_NULL (ELookup "String")) []); (mkFieldE "expensive" "" None (EWrap NON_NULL (EWrap LIST (EWrap NON_NULL (ELookup "Expensive")))) []); (mkFieldE "testTaskState" "" None (EWrap NON_NULL (ELookup "TaskState")) []); (mkFieldE "anyType" "" None (EWrap NON_NULL (EWrap LIST (ELookup "UnionType"))) [(mkInputE "ids" "" (EWrap NON_NULL (EWrap LIST (EWrap NON_NULL (ELookup "ID")))) "")])];
  SFields "typePageInfo" [(mkFieldE "hasNextPage" "" None (EWrap NON_NULL (ELookup "Boolean")) []); (mkFieldE "hasPreviousPage" "" None (EWrap NON_NULL (ELookup "Boolean")) [])];
  SFields "typeAppointmentEdge" [(mkFieldE "node" "" None (ELookup "Appointment") []); (mkFieldE "cursor" "" None (EWrap NON_NULL (ELookup "ItemCursor")) [])];
  SFields "typeAppointmentConnection" [(mkFieldE "pageInfo" "" None (EWrap NON_NULL (ELookup "PageInfo")) []); (mkFieldE "edges" "" None (EWrap LIST (ELookup "AppointmentEdge")) [])];
  SFields "typeTaskEdge" [(mkFieldE "node" "" None (ELookup "Task") []); (mkFieldE "cursor" "" None (EWrap NON_NULL (ELookup "ItemCursor")) [])];
  SFields "typeTaskConnection" [(mkFieldE "pageInfo" "" None (EWrap NON_NULL (ELookup "PageInfo")) []); (mkFieldE "edges" "" None (EWrap LIST (ELookup "TaskEdge")) [])];
  SFields "typeFolderEdge" [(mkFieldE "node" "" None (ELookup "Folder") []); (mkFieldE "cursor" "" None (EWrap NON_NULL (ELookup "ItemCursor")) [])];
  SFields "typeFolderConnection" [(mkFieldE "pageInfo" "" None (EWrap NON_NULL (ELookup "PageInfo")) []); (mkFieldE "edges" "" None (EWrap LIST (ELookup "FolderEdge")) [])];
  SFields "typeCompleteTaskPayload" [(mkFieldE "task" "" None (ELookup "Task") []); (mkFieldE "clientMutationId" "" None (ELookup "String") [])];
  SFields "typeMutation" [(mkFieldE "completeTask" "" None (EWrap NON_NULL (ELookup "CompleteTaskPayload")) [(mkInputE "input" "" (EWrap NON_NULL (ELookup "CompleteTaskInput")) "")]); (mkFieldE "setFloat" "" None (EWrap NON_NULL (ELookup "Float")) [(mkInputE "value" "" (EWrap NON_NULL (ELookup "Float")) "")])];
  SFields "typeSubscription" [(mkFieldE "nextAppointmentChange" "" (Some "Need to deprecate a [field](http://spec.graphql.org/June2018/#sec-Deprecation)") (ELookup "Appointment") []); (mkFieldE "nodeChange" "" None (EWrap NON_NULL (ELookup "Node")) [(mkInputE "id" "" (EWrap NON_NULL (ELookup "ID")) "")])];
  SInterfaces "typeAppointment" [(EVar "typeNode")];
  SFields "typeAppointment" [(mkFieldE "id" "" None (EWrap NON_NULL (ELookup "ID")) []); (mkFieldE "when" "" None (ELookup "DateTime") []); (mkFieldE "subject" "" None (ELookup "String") []); (mkFieldE "isNow" "" None (EWrap NON_NULL (ELookup "Boolean")) []); (mkFieldE "forceError" "" None (ELookup "String") [])];
  SInterfaces "typeTask" [(EVar "typeNode")];
  SFields "typeTask" [(mkFieldE "id" "" None (EWrap NON_NULL (ELookup "ID")) []); (mkFieldE "title" "" None (ELookup "String") []); (mkFieldE "isComplete" "" None (EWrap NON_NULL (ELookup "Boolean")) [])];
  SInterfaces "typeFolder" [(EVar "typeNode")];
  SFields "typeFolder" [(mkFieldE "id" "" None (EWrap NON_NULL (ELookup "ID")) []); (mkFieldE "name" "" None (ELookup "String") []); (mkFieldE "unreadCount" "" None (EWrap NON_NULL (ELookup "Int")) [])];
  SFields "typeNestedType" [(mkFieldE "depth" "" None (EWrap NON_NULL (ELookup "Int")) []); (mkFieldE "nested" "" None (EWrap NON_NULL (ELookup "NestedType")) [])];
  SFields "typeExpensive" [(mkFieldE "order" "" None (EWrap NON_NULL (ELookup "Int")) [])];
  SDirective "id" "" [SchemaModel.FIELD_DEFINITION] [];
  SDirective "subscriptionTag" "" [SchemaModel.SUBSCRIPTION] [(mkInputE "field" "" (ELookup "String") "")];
  SDirective "queryTag" "" [SchemaModel.QUERY] [(mkInputE "query" "" (EWrap NON_NULL (ELookup "String")) "")];
  SDirective "fieldTag" "" [SchemaModel.FIELD] [(mkInputE "field" "" (EWrap NON_NULL (ELookup "String")) "")];
  SDirective "fragmentDefinitionTag" "" [SchemaModel.FRAGMENT_DEFINITION] [(mkInputE "fragmentDefinition" "" (EWrap NON_NULL (ELookup "String")) "")];
  SDirective "fragmentSpreadTag" "" [SchemaModel.FRAGMENT_SPREAD] [(mkInputE "fragmentSpread" "" (EWrap NON_NULL (ELookup "String")) "")];
  SDirective "inlineFragmentTag" "" [SchemaModel.INLINE_FRAGMENT] [(mkInputE "inlineFragment" "" (EWrap NON_NULL (ELookup "String")) "")];
  SOperation OpQuery "typeQuery";
  SOperation OpMutation "typeMutation";
  SOperation OpSubscription "typeSubscription"].
(** samples/separate_nointrospection/TodaySchema.cpp *)
Definition separate_nointrospection_cpp : program := mkProgram [("TaskState", [("New", "New"); ("Started", "Started"); ("Complete", "Complete"); ("Unassigned", "Unassigned")])]
 [SAddScalar "ItemCursor" "ItemCursor" "";
  SAddScalar "DateTime" "DateTime" "";
  SMake ENUM "typeTaskState" "TaskState" "";
  SAddType "TaskState" "typeTaskState";
  SMake INPUT_OBJECT "typeCompleteTaskInput" "CompleteTaskInput" "";
  SAddType "CompleteTaskInput" "typeCompleteTaskInput";
  SMake INPUT_OBJECT "typeThirdNestedInput" "ThirdNestedInput" "";
  SAddType "ThirdNestedInput" "typeThirdNestedInput";
  SMake INPUT_OBJECT "typeFourthNestedInput" "FourthNestedInput" "";
  SAddType "FourthNestedInput" "typeFourthNestedInput";
  SMake INPUT_OBJECT "typeSecondNestedInput" "SecondNestedInput" "";
  SAddType "SecondNestedInput" "typeSecondNestedInput";
  SMake INPUT_OBJECT "typeFirstNestedInput" "FirstNestedInput" "";
  SAddType "FirstNestedInput" "typeFirstNestedInput";
  SMake UNION "typeUnionType" "UnionType" "";
  SAddType "UnionType" "typeUnionType";
  SMake INTERFACE "typeNode" "Node" "";
  SAddType "Node" "typeNode";
  SMake OBJECT "typeQuery" "Query" "";
  SAddType "Query" "typeQuery";
  SMake OBJECT "typePageInfo" "PageInfo" "";
  SAddType "PageInfo" "typePageInfo";
  SMake OBJECT "typeAppointmentEdge" "AppointmentEdge" "";
  SAddType "AppointmentEdge" "typeAppointmentEdge";
  SMake OBJECT "typeAppointmentConnection" "AppointmentConnection" "";
  SAddType "AppointmentConnection" "typeAppointmentConnection";
  SMake OBJECT "typeTaskEdge" "TaskEdge" "";
  SAddType "TaskEdge" "typeTaskEdge";
  SMake OBJECT "typeTaskConnection" "TaskConnection" "";
  SAddType "TaskConnection" "typeTaskConnection";
  SMake OBJECT "typeFolderEdge" "FolderEdge" "";
  SAddType "FolderEdge" "typeFolderEdge";
  SMake OBJECT "typeFolderConnection" "FolderConnection" "";
  SAddType "FolderConnection" "typeFolderConnection";
  SMake OBJECT "typeCompleteTaskPayload" "CompleteTaskPayload" "";
  SAddType "CompleteTaskPayload" "typeCompleteTaskPayload";
  SMake OBJECT "typeMutation" "Mutation" "";
  SAddType "Mutation" "typeMutation";
  SMake OBJECT "typeSubscription" "Subscription" "";
  SAddType "Subscription" "typeSubscription";
  SMake OBJECT "typeAppointment" "Appointment" "";
  SAddType "Appointment" "typeAppointment";
  SMake OBJECT "typeTask" "Task" "";
  SAddType "Task" "typeTask";
  SMake OBJECT "typeFolder" "Folder" "";
  SAddType "Folder" "typeFolder";
  SMake OBJECT "typeNestedType" "NestedType" "";
  SAddType "NestedType" "typeNestedType";
  SMake OBJECT "typeExpensive" "Expensive" "";
  SAddType "Expensive" "typeExpensive";
  SEnumValues "typeTaskState" [(mkEnumE "TaskState" "New" "" None); (mkEnumE "TaskState" "Started" "" None); (mkEnumE "TaskState" "Complete" "" None); (mkEnumE "TaskState" "Unassigned" "" (Some "Need to deprecate an [enum value](http://spec.graphql.org/June2018/#sec-Deprecation)"))];
  SInputValues "typeCompleteTaskInput" [(mkInputE "id" "" (EWrap NON_NULL (ELookup "ID")) ""); (mkInputE "testTaskState" "" (ELookup "TaskState") ""); (mkInputE "isComplete" "" (ELookup "Boolean") "true"); (mkInputE "clientMutationId" "" (ELookup "String") "")];
  SInputValues "typeThirdNestedInput" [(mkInputE "id" "" (EWrap NON_NULL (ELookup "ID")) "")];
  SInputValues "typeFourthNestedInput" [(mkInputE "id" "" (EWrap NON_NULL (ELookup "ID")) "")];
  SInputValues "typeSecondNestedInput" [(mkInputE "id" "" (EWrap NON_NULL (ELookup "ID")) ""); (mkInputE "third" "" (EWrap NON_NULL (ELookup "ThirdNestedInput")) "")];
  SInputValues "typeFirstNestedInput" [(mkInputE "id" "" (EWrap NON_NULL (ELookup "ID")) ""); (mkInputE "second" "" (EWrap NON_NULL (ELookup "SecondNestedInput")) ""); (mkInputE "third" "" (EWrap NON_NULL (ELookup "ThirdNestedInput")) "")];
  SPossibleTypes "typeUnionType" [(ELookup "Appointment"); (ELookup "Task"); (ELookup "Folder")];
  SFields "typeNode" [(mkFieldE "id" "" None (EWrap NON_NULL (ELookup "ID")) [])];
  SFields "typeQuery" [(mkFieldE "node" "" None (ELookup "Node") [(mkInputE "id" "" (EWrap NON_NULL (ELookup "ID")) "")]); (mkFieldE "appointments" "" None (EWrap NON_NULL (ELookup "AppointmentConnection")) [(mkInputE "first" "" (ELookup "Int") ""); (mkInputE "after" "" (ELookup "ItemCursor") ""); (mkInputE "last" "" (ELookup "Int") ""); (mkInputE "before" "" (ELookup "ItemCursor") "")]); (mkFieldE "tasks" "" None (EWrap NON_NULL (ELookup "TaskConnection")) [(mkInputE "first" "" (ELookup "Int") ""); (mkInputE "after" "" (ELookup "ItemCursor") ""); (mkInputE "last" "" (ELookup "Int") ""); (mkInputE "before" "" (ELookup "ItemCursor") "")]); (mkFieldE "unreadCounts" "" None (EWrap NON_NULL (ELookup "FolderConnection")) [(mkInputE "first" "" (ELookup "Int") ""); (mkInputE "after" "" (ELookup "ItemCursor") ""); (mkInputE "last" "" (ELookup "Int") ""); (mkInputE "before" "" (ELookup "ItemCursor") "")]); (mkFieldE "appointmentsById" "" None (EWrap NON_NULL (EWrap LIST (ELookup "Appointment"))) [(mkInputE "ids" "" (EWrap NON_NULL (EWrap LIST (EWrap NON_NULL (ELookup "ID")))) "[""ZmFrZUFwcG9pbnRtZW50SWQ=""]")]); (mkFieldE "tasksById" "" None (EWrap NON_NULL (EWrap LIST (ELookup "Task"))) [(mkInputE "ids" "" (EWrap NON_NULL (EWrap LIST (EWrap NON_NULL (ELookup "ID")))) "")]); (mkFieldE "unreadCountsById" "" None (EWrap NON_NULL (EWrap LIST (ELookup "Folder"))) [(mkInputE "ids" "" (EWrap NON_NULL (EWrap LIST (EWrap NON_NULL (ELookup "ID")))) "")]); (mkFieldE "nested" "" None (EWrap NON_NULL (ELookup "NestedType")) []); (mkFieldE "unimplemented" "" None (EWrap NON_NULL (ELookup "String")) []); (mkFieldE "expensive" "" None (EWrap NON_NULL (EWrap LIST (EWrap NON_NULL (ELookup "Expensive")))) []); (mkFieldE "testTaskState" "" None (EWrap NON_NULL (ELookup "TaskState")) []); (mkFieldE "anyType" "" None (EWrap NON_NULL (EWrap LIST (ELookup "UnionType"))) [(mkInputE "ids" "" (EWrap NON_NULL (EWrap LIST (EWrap NON_NULL (ELookup "ID")))) "")])];
  SFields "typePageInfo" [(mkFieldE "hasNextPage" "" None (EWrap NON_NULL (ELookup "Boolean")) []); (mkFieldE "hasPreviousPage" "" None (EWrap NON_NULL (ELookup "Boolean")) [])];
  SFields "typeAppointmentEdge" [(mkFieldE "node" "" None (ELookup "Appointment") []); (mkFieldE "cursor" "" None (EWrap NON_NULL (ELookup "ItemCursor")) [])];
  SFields "typeAppointmentConnection" [(mkFieldE "pageInfo" "" None (EWrap NON_NULL (ELookup "PageInfo")) []); (mkFieldE "edges" "" None (EWrap LIST (ELookup "AppointmentEdge")) [])];
  SFields "typeTaskEdge" [(mkFieldE "node" "" None (ELookup "Task") []); (mkFieldE "cursor" "" None (EWrap NON_NULL (ELookup "ItemCursor")) [])];
  SFields "typeTaskConnection" [(mkFieldE "pageInfo" "" None (EWrap NON_NULL (ELookup "PageInfo")) []); (mkFieldE "edges" "" None (EWrap LIST (ELookup "TaskEdge")) [])];
  SFields "typeFolderEdge" [(mkFieldE "node" "" None (ELookup "Folder") []); (mkFieldE "cursor" "" None (EWrap NON_NULL (ELookup "ItemCursor")) [])];
  SFields "typeFolderConnection" [(mkFieldE "pageInfo" "" None (EWrap NON_NULL (ELookup "PageInfo")) []); (mkFieldE "edges" "" None (EWrap LIST (ELookup "FolderEdge")) [])];
  SFields "typeCompleteTaskPayload" [(mkFieldE "task" "" None (ELookup "Task") []); (mkFieldE "clientMutationId" "" None (ELookup "String") [])];
  SFields "typeMutation" [(mkFieldE "completeTask" "" None (EWrap NON_NULL (ELookup "CompleteTaskPayload")) [(mkInputE "input" "" (EWrap NON_NULL (ELookup "CompleteTaskInput")) "")]); (mkFieldE "setFloat" "" None (EWrap NON_NULL (ELookup "Float")) [(mkInputE "value" "" (EWrap NON_NULL (ELookup "Float")) "")])];
  SFields "typeSubscription" [(mkFieldE "nextAppointmentChange" "" (Some "Need to deprecate a [field](http://spec.graphql.org/June2018/#sec-Deprecation)") (ELookup "Appointment") []); (mkFieldE "nodeChange" "" None (EWrap NON_NULL (ELookup "Node")) [(mkInputE "id" "" (EWrap NON_NULL (ELookup "ID")) "")])];
  SInterfaces "typeAppointment" [(ELookup "Node")];
  SFields "typeAppointment" [(mkFieldE "id" "" None (EWrap NON_NULL (ELookup "ID")) []); (mkFieldE "when" "" None (ELookup "DateTime") []); (mkFieldE "subject" "" None (ELookup "String") []); (mkFieldE "isNow" "" None (EWrap NON_NULL (ELookup "Boolean")) []); (mkFieldE "forceError" "" None (ELookup "String") [])];
  SInterfaces "typeTask" [(ELookup "Node")];
  SFields "typeTask" [(mkFieldE "id" "" None (EWrap NON_NULL (ELookup "ID")) []); (mkFieldE "title" "" None (ELookup "String") []); (mkFieldE "isComplete" "" None (EWrap NON_NULL (ELookup "Boolean")) [])];
  SInterfaces "typeFolder" [(ELookup "Node")];
  SFields "typeFolder" [(mkFieldE "id" "" None (EWrap NON_NULL (ELookup "ID")) []); (mkFieldE "name" "" None (ELookup "String") []); (mkFieldE "unreadCount" "" None (EWrap NON_NULL (ELookup "Int")) [])];
  SFields "typeNestedType" [(mkFieldE "depth" "" None (EWrap NON_NULL (ELookup "Int")) []); (mkFieldE "nested" "" None (EWrap NON_NULL (ELookup "NestedType")) [])];
  SFields "typeExpensive" [(mkFieldE "order" "" None (EWrap NON_NULL (ELookup "Int")) [])];
  SDirective "id" "" [SchemaModel.FIELD_DEFINITION] [];
  SDirective "subscriptionTag" "" [SchemaModel.SUBSCRIPTION] [(mkInputE "field" "" (ELookup "String") "")];
  SDirective "queryTag" "" [SchemaModel.QUERY] [(mkInputE "query" "" (EWrap NON_NULL (ELookup "String")) "")];
  SDirective "fieldTag" "" [SchemaModel.FIELD] [(mkInputE "field" "" (EWrap NON_NULL (ELookup "String")) "")];
  SDirective "fragmentDefinitionTag" "" [SchemaModel.FRAGMENT_DEFINITION] [(mkInputE "fragmentDefinition" "" (EWrap NON_NULL (ELookup "String")) "")];
  SDirective "fragmentSpreadTag" "" [SchemaModel.FRAGMENT_SPREAD] [(mkInputE "fragmentSpread" "" (EWrap NON_NULL (ELookup "String")) "")];
  SDirective "inlineFragmentTag" "" [SchemaModel.INLINE_FRAGMENT] [(mkInputE "inlineFragment" "" (EWrap NON_NULL (ELookup "String")) "")];
  SOperation OpQuery "typeQuery";
  SOperation OpMutation "typeMutation";
  SOperation OpSubscription "typeSubscription"].
(** samples/validation/ValidationSchema.cpp *)
Definition validation_cpp : program := mkProgram [("DogCommand", [("SIT", "SIT"); ("DOWN", "DOWN"); ("HEEL", "HEEL")]); ("CatCommand", [("JUMP", "JUMP")])]
 [SMake ENUM "typeDogCommand" "DogCommand" "";
  SAddType "DogCommand" "typeDogCommand";
  SMake ENUM "typeCatCommand" "CatCommand" "";
  SAddType "CatCommand" "typeCatCommand";
  SMake INPUT_OBJECT "typeComplexInput" "ComplexInput" "[Example 155](http://spec.graphql.org/June2018/#example-f3185)";
  SAddType "ComplexInput" "typeComplexInput";
  SMake UNION "typeCatOrDog" "CatOrDog" "";
  SAddType "CatOrDog" "typeCatOrDog";
  SMake UNION "typeDogOrHuman" "DogOrHuman" "";
  SAddType "DogOrHuman" "typeDogOrHuman";
  SMake UNION "typeHumanOrAlien" "HumanOrAlien" "";
  SAddType "HumanOrAlien" "typeHumanOrAlien";
  SMake INTERFACE "typeSentient" "Sentient" "";
  SAddType "Sentient" "typeSentient";
  SMake INTERFACE "typePet" "Pet" "";
  SAddType "Pet" "typePet";
  SMake OBJECT "typeQuery" "Query" "GraphQL validation [sample](http://spec.graphql.org/June2018/#example-26a9d)";
  SAddType "Query" "typeQuery";
  SMake OBJECT "typeDog" "Dog" "";
  SAddType "Dog" "typeDog";
  SMake OBJECT "typeAlien" "Alien" "";
  SAddType "Alien" "typeAlien";
  SMake OBJECT "typeHuman" "Human" "";
  SAddType "Human" "typeHuman";
  SMake OBJECT "typeCat" "Cat" "";
  SAddType "Cat" "typeCat";
  SMake OBJECT "typeMutation" "Mutation" "Support for [Counter Example 94](http://spec.graphql.org/June2018/#example-77c2e)";
  SAddType "Mutation" "typeMutation";
  SMake OBJECT "typeMutateDogResult" "MutateDogResult" "Support for [Counter Example 94](http://spec.graphql.org/June2018/#example-77c2e)";
  SAddType "MutateDogResult" "typeMutateDogResult";
  SMake OBJECT "typeSubscription" "Subscription" "Support for [Example 97](http://spec.graphql.org/June2018/#example-5bbc3) - [Counter Example 101](http://spec.graphql.org/June2018/#example-2353b)";
  SAddType "Subscription" "typeSubscription";
  SMake OBJECT "typeMessage" "Message" "Support for [Example 97](http://spec.graphql.org/June2018/#example-5bbc3) - [Counter Example 101](http://spec.graphql.org/June2018/#example-2353b)";
  SAddType "Message" "typeMessage";
  SMake OBJECT "typeArguments" "Arguments" "Support for [Example 120](http://spec.graphql.org/June2018/#example-1891c)";
  SAddType "Arguments" "typeArguments";
  SEnumValues "typeDogCommand" [(mkEnumE "DogCommand" "SIT" "" None); (mkEnumE "DogCommand" "DOWN" "" None); (mkEnumE "DogCommand" "HEEL" "" None)];
  SEnumValues "typeCatCommand" [(mkEnumE "CatCommand" "JUMP" "" None)];
  SInputValues "typeComplexInput" [(mkInputE "name" "" (ELookup "String") ""); (mkInputE "owner" "" (ELookup "String") "")];
  SPossibleTypes "typeCatOrDog" [(ELookup "Cat"); (ELookup "Dog")];
  SPossibleTypes "typeDogOrHuman" [(ELookup "Dog"); (ELookup "Human")];
  SPossibleTypes "typeHumanOrAlien" [(ELookup "Human"); (ELookup "Alien")];
  SFields "typeSentient" [(mkFieldE "name" "" None (EWrap NON_NULL (ELookup "String")) [])];
  SFields "typePet" [(mkFieldE "name" "" None (EWrap NON_NULL (ELookup "String")) [])];
  SFields "typeQuery" [(mkFieldE "dog" "" None (ELookup "Dog") []); (mkFieldE "human" "Support for [Counter Example 116](http://spec.graphql.org/June2018/#example-77c2e)" None (ELookup "Human") []); (mkFieldE "pet" "Support for [Counter Example 116](http://spec.graphql.org/June2018/#example-77c2e)" None (ELookup "Pet") []); (mkFieldE "catOrDog" "Support for [Counter Example 116](http://spec.graphql.org/June2018/#example-77c2e)" None (ELookup "CatOrDog") []); (mkFieldE "arguments" "Support for [Example 120](http://spec.graphql.org/June2018/#example-1891c)" None (ELookup "Arguments") []); (mkFieldE "findDog" "[Example 155](http://spec.graphql.org/June2018/#example-f3185)" None (ELookup "Dog") [(mkInputE "complex" "" (ELookup "ComplexInput") "")]); (mkFieldE "booleanList" "[Example 155](http://spec.graphql.org/June2018/#example-f3185)" None (ELookup "Boolean") [(mkInputE "booleanListArg" "" (EWrap LIST (EWrap NON_NULL (ELookup "Boolean"))) "")])];
  SInterfaces "typeDog" [(EVar "typePet")];
  SFields "typeDog" [(mkFieldE "name" "" None (EWrap NON_NULL (ELookup "String")) []); (mkFieldE "nickname" "" None (ELookup "String") []); (mkFieldE "barkVolume" "" None (ELookup "Int") []); (mkFieldE "doesKnowCommand" "" None (EWrap NON_NULL (ELookup "Boolean")) [(mkInputE "dogCommand" "" (EWrap NON_NULL (ELookup "DogCommand")) "")]); (mkFieldE "isHousetrained" "" None (EWrap NON_NULL (ELookup "Boolean")) [(mkInputE "atOtherHomes" "" (ELookup "Boolean") "")]); (mkFieldE "owner" "" None (ELookup "Human") [])];
  SInterfaces "typeAlien" [(EVar "typeSentient")];
  SFields "typeAlien" [(mkFieldE "name" "" None (EWrap NON_NULL (ELookup "String")) []); (mkFieldE "homePlanet" "" None (ELookup "String") [])];
  SInterfaces "typeHuman" [(EVar "typeSentient")];
  SFields "typeHuman" [(mkFieldE "name" "" None (EWrap NON_NULL (ELookup "String")) []); (mkFieldE "pets" "Support for [Counter Example 136](http://spec.graphql.org/June2018/#example-6bbad)" None (EWrap NON_NULL (EWrap LIST (EWrap NON_NULL (ELookup "Pet")))) [])];
  SInterfaces "typeCat" [(EVar "typePet")];
  SFields "typeCat" [(mkFieldE "name" "" None (EWrap NON_NULL (ELookup "String")) []); (mkFieldE "nickname" "" None (ELookup "String") []); (mkFieldE "doesKnowCommand" "" None (EWrap NON_NULL (ELookup "Boolean")) [(mkInputE "catCommand" "" (EWrap NON_NULL (ELookup "CatCommand")) "")]); (mkFieldE "meowVolume" "" None (ELookup "Int") [])];
  SFields "typeMutation" [(mkFieldE "mutateDog" "" None (ELookup "MutateDogResult") [])];
  SFields "typeMutateDogResult" [(mkFieldE "id" "" None (EWrap NON_NULL (ELookup "ID")) [])];
  SFields "typeSubscription" [(mkFieldE "newMessage" "Support for [Example 97](http://spec.graphql.org/June2018/#example-5bbc3) - [Counter Example 101](http://spec.graphql.org/June2018/#example-2353b)" None (EWrap NON_NULL (ELookup "Message")) []); (mkFieldE "disallowedSecondRootField" "Support for [Counter Example 99](http://spec.graphql.org/June2018/#example-3997d) - [Counter Example 100](http://spec.graphql.org/June2018/#example-18466)" None (EWrap NON_NULL (ELookup "Boolean")) [])];
  SFields "typeMessage" [(mkFieldE "body" "" None (ELookup "String") []); (mkFieldE "sender" "" None (EWrap NON_NULL (ELookup "ID")) [])];
  SFields "typeArguments" [(mkFieldE "multipleReqs" "Support for [Example 121](http://spec.graphql.org/June2018/#example-18fab)" None (EWrap NON_NULL (ELookup "Int")) [(mkInputE "x" "" (EWrap NON_NULL (ELookup "Int")) ""); (mkInputE "y" "" (EWrap NON_NULL (ELookup "Int")) "")]); (mkFieldE "booleanArgField" "" None (ELookup "Boolean") [(mkInputE "booleanArg" "" (ELookup "Boolean") "")]); (mkFieldE "floatArgField" "" None (ELookup "Float") [(mkInputE "floatArg" "" (ELookup "Float") "")]); (mkFieldE "intArgField" "" None (ELookup "Int") [(mkInputE "intArg" "" (ELookup "Int") "")]); (mkFieldE "nonNullBooleanArgField" "" None (EWrap NON_NULL (ELookup "Boolean")) [(mkInputE "nonNullBooleanArg" "" (EWrap NON_NULL (ELookup "Boolean")) "")]); (mkFieldE "nonNullBooleanListField" "" None (EWrap LIST (EWrap NON_NULL (ELookup "Boolean"))) [(mkInputE "nonNullBooleanListArg" "" (EWrap LIST (EWrap NON_NULL (ELookup "Boolean"))) "")]); (mkFieldE "booleanListArgField" "" None (EWrap LIST (ELookup "Boolean")) [(mkInputE "booleanListArg" "" (EWrap NON_NULL (EWrap LIST (ELookup "Boolean"))) "")]); (mkFieldE "optionalNonNullBooleanArgField" "" None (EWrap NON_NULL (ELookup "Boolean")) [(mkInputE "optionalBooleanArg" "" (EWrap NON_NULL (ELookup "Boolean")) "false")])];
  SOperation OpQuery "typeQuery";
  SOperation OpMutation "typeMutation";
  SOperation OpSubscription "typeSubscription"].
(** The model generates the code that is in the repository. *)
Example introspection_same : introspection_program = Ok introspection_cpp.
Proof. vm_compute. reflexivity. Qed.
Example unified_same : rmap (generate false false false) (load false today_sdl) = Ok unified_cpp.
Proof. vm_compute. reflexivity. Qed.
Example separate_same : rmap (generate false true false) (load false today_sdl) = Ok separate_cpp.
Proof. vm_compute. reflexivity. Qed.
Example unified_nointrospection_same : rmap (generate true false false) (load false today_sdl) = Ok unified_nointrospection_cpp.
Proof. vm_compute. reflexivity. Qed.
Example separate_nointrospection_same : rmap (generate true true false) (load false today_sdl) = Ok separate_nointrospection_cpp.
Proof. vm_compute. reflexivity. Qed.
Example validation_same : rmap (generate false false false) (load false validation_sdl) = Ok validation_cpp.
Proof. vm_compute. reflexivity. Qed.
(** And C46 is about these documents. *)
Example today_usual : usual today_sdl.
Proof. apply usual_b_ok. vm_compute. reflexivity. Qed.
Example validation_usual : usual validation_sdl.
Proof. apply usual_b_ok. vm_compute. reflexivity. Qed.
